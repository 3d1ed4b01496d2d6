(** * Control-flow graph of the [unreachable_code] rule

    Models /repo/crates/jarl-core/src/lints/base/unreachable_code:
    cfg/graph.rs, cfg/builder.rs, cfg/reachability.rs, unreachable_code.rs.

    Simplifications (all of them stated where they occur as well):
    - A syntax node is reduced to what the builder looks at: its kind, its
      trimmed range, the text of a call's callee, the condition of an [if] and
      the bodies.  Everything the builder treats as one opaque statement is a
      [Simple] (assignments, function definitions, operators, literals ...).
    - The builder's [Option]/[Result] accessors for missing children are absent:
      a file with a syntax error never reaches this code (checker refuses it),
      so every [if] has a condition and a consequence, every loop a body.
    - The unused parameter [exit] of the builder functions is dropped. *)
From Verif Require Import Model.Text Model.Base.
Import ListNotations.

(** ** Source programs *)

(** biome [TextRange] (byte offsets), as used by graph.rs:27. *)
Record range := Rg { r_start : nat; r_end : nat }.

(** [TextRange::cover]: least range containing both. *)
Definition cover (a b : range) : range :=
  Rg (Nat.min (r_start a) (r_start b)) (Nat.max (r_end a) (r_end b)).

(** Conditions as [evaluate_constant_condition] distinguishes them
    (builder.rs:35-113). *)
Inductive cond :=
| CTrue                      (* TRUE  *)
| CFalse                     (* FALSE *)
| CParen (c : cond)          (* ( c ) *)
| COr (a b : cond)           (* a | b, a || b *)
| CAnd (a b : cond)          (* a & b, a && b *)
| COther.                    (* anything else *)

(** Statements as [build_statement] distinguishes them (builder.rs:233-311). *)
Inductive stmt :=
| Simple (r : range)                                   (* builder.rs:302-310 *)
| Call (r : range) (callee : text)                     (* R_CALL, builder.rs:278-301 *)
| Break (r : range)                                    (* the keyword [break] *)
| Next (r : range)                                     (* the keyword [next] *)
| Return (r : range)                                   (* the bare word [return], builder.rs:242 *)
| Block (r : range) (l : list stmt)                    (* { ... } *)
| If (r : range) (c : cond) (t : stmt) (e : option stmt)
| For (r : range) (b : stmt)
| While (r : range) (c : cond) (b : stmt)
| Repeat (r : range) (b : stmt).

(** [RSyntaxNode::text_trimmed_range]. *)
Definition rng (s : stmt) : range :=
  match s with
  | Simple r | Call r _ | Break r | Next r | Return r | Block r _
  | If r _ _ _ | For r _ | While r _ _ | Repeat r _ => r
  end.

(** ** Constant conditions — builder.rs:35-113 *)
Fixpoint const_cond (c : cond) : option bool :=
  match c with
  | CTrue => Some true
  | CFalse => Some false
  | CParen c => const_cond c
  | COr a b =>
      match const_cond a, const_cond b with
      | Some true, _ => Some true
      | _, Some true => Some true
      | Some false, Some false => Some false
      | _, _ => None
      end
  | CAnd a b =>
      match const_cond a, const_cond b with
      | Some false, _ => Some false
      | _, Some false => Some false
      | Some true, Some true => Some true
      | _, _ => None
      end
  | COther => None
  end.

(** ** The graph — graph.rs *)

(** graph.rs:45-69 *)
Inductive term := TNone | TGoto | TReturn | TStop | TBreak | TNext | TBranch | TLoop.

(** graph.rs:16-28.  [id] is the index in the vector. *)
Record block := Blk {
  b_stmts : list stmt;
  b_succ : list nat;
  b_pred : list nat;
  b_term : term;
  b_range : option range
}.

(** graph.rs:31-40 *)
Definition empty_block : block := Blk [] [] [] TNone None.

Definition graph := list block.

(** graph.rs:87-92: block 0 is the entry, block 1 the exit. *)
Definition entry : nat := 0.
Definition exit_ : nat := 1.
Definition new_graph : graph := [empty_block; empty_block].

(** [cfg.block(id)] (graph.rs:95); ids outside the vector read as an empty block. *)
Definition blk (g : graph) (i : nat) : block := nth i g empty_block.

(** [block_mut(id)] (graph.rs:100) followed by an update; no effect outside. *)
Fixpoint upd (g : graph) (i : nat) (f : block -> block) : graph :=
  match g, i with
  | [], _ => []
  | b :: g, 0 => f b :: g
  | b :: g, S i => b :: upd g i f
  end.

Definition push_stmt (s : stmt) (b : block) : block :=
  Blk (b_stmts b ++ [s]) (b_succ b) (b_pred b) (b_term b) (b_range b).
Definition set_term (t : term) (b : block) : block :=
  Blk (b_stmts b) (b_succ b) (b_pred b) t (b_range b).
Definition push_pred (i : nat) (b : block) : block :=
  Blk (b_stmts b) (b_succ b) (b_pred b ++ [i]) (b_term b) (b_range b).
Definition push_succ (i : nat) (b : block) : block :=
  Blk (b_stmts b) (b_succ b ++ [i]) (b_pred b) (b_term b) (b_range b).
Definition set_range (r : range) (b : block) : block :=
  Blk (b_stmts b) (b_succ b) (b_pred b) (b_term b) (Some r).

Definition memn (i : nat) (l : list nat) : bool := existsb (Nat.eqb i) l.

(** graph.rs:112-123 *)
Definition add_edge (g : graph) (from to : nat) : graph :=
  let g := upd g from (fun b => if memn to (b_succ b) then b else push_succ to b) in
  upd g to (fun b => if memn from (b_pred b) then b else push_pred from b).

(** graph.rs:105-109, [n] times. *)
Definition new_blocks (g : graph) (n : nat) : graph := g ++ repeat empty_block n.

(** builder.rs:129-146 *)
Definition has_incoming (g : graph) (i : nat) : bool :=
  (i =? entry) || existsb (fun p => memn i (b_succ (blk g p))) (b_pred (blk g i)).

(** builder.rs:647-658 *)
Definition add_statement (g : graph) (i : nat) (s : stmt) : graph :=
  upd g i (fun b =>
    set_range (match b_range b with Some r => cover r (rng s) | None => rng s end)
      (push_stmt s b)).

(** The four terminators tested at builder.rs:199-202, 380-386, 414-420,
    486-489, 539-542, 588-591. *)
Definition terminated (t : term) : bool :=
  match t with TReturn | TBreak | TNext | TStop => true | _ => false end.

(** ** The builder — builder.rs *)

(** builder.rs:20-25: (continue_target, break_target), innermost first. *)
Definition loops := list (nat * nat).

(** builder.rs:606-611 and 617-622 *)
Definition build_return (g : graph) (cur : nat) : graph := upd g cur (set_term TReturn).
Definition build_stop (g : graph) (cur : nat) : graph := upd g cur (set_term TStop).

(** builder.rs:625-633 *)
Definition build_break (g : graph) (cur : nat) (ls : loops) : graph :=
  match ls with
  | (_, target) :: _ => add_edge (upd g cur (set_term TBreak)) cur target
  | [] => g
  end.

(** builder.rs:636-644 *)
Definition build_next (g : graph) (cur : nat) (ls : loops) : graph :=
  match ls with
  | (target, _) :: _ => add_edge (upd g cur (set_term TNext)) cur target
  | [] => g
  end.

(** [rsplit_once("::")]: the part after the last [::] — builder.rs:282-284. *)
Fixpoint after_last_colons (t : text) : option text :=
  match t with
  | [] => None
  | c :: rest =>
      match after_last_colons rest with
      | Some x => Some x
      | None =>
          match rest with
          | d :: rest' => if (c =? 58)%N && (d =? 58)%N then Some rest' else None
          | [] => None
          end
      end
  end.
Definition fun_name (callee : text) : text :=
  match after_last_colons callee with Some x => x | None => callee end.

Inductive call_class := KReturn | KBreak | KNext | KStop | KOther.

(** builder.rs:285-300 *)
Definition classify (stopping : list text) (callee : text) : call_class :=
  let f := fun_name callee in
  if teqb f (lit "return") then KReturn
  else if teqb f (lit "break") then KBreak
  else if teqb f (lit "next") then KNext
  else if mem f stopping then KStop
  else KOther.

(** builder.rs:212-215 *)
Definition add_all (g : graph) (i : nat) (l : list stmt) : graph :=
  fold_left (fun g s => add_statement g i s) l g.

(** builder.rs:188-221, over the function that builds one statement. *)
Section BuildList.
  Variable bs : stmt -> graph -> nat -> graph * nat.
  Fixpoint build_list (l : list stmt) (g : graph) (cur : nat) : graph * nat :=
    match l with
    | [] => (g, cur)
    | s :: rest =>
        let '(g1, c1) := bs s g cur in
        match rest with
        | [] => (g1, c1)
        | _ :: _ =>
            if terminated (b_term (blk g1 c1)) then
              let dead := length g1 in
              let g2 := upd (new_blocks g1 1) dead (push_pred c1) in
              (add_all g2 dead rest, dead)
            else build_list rest g1 c1
        end
    end.
End BuildList.

Definition is_true (o : option bool) : bool := match o with Some true => true | _ => false end.
Definition is_false (o : option bool) : bool := match o with Some false => true | _ => false end.

(** [if !terminated && has_incoming { goto; edge }] — builder.rs:379-393, 413-427 *)
Definition join_branch (g : graph) (from after : nat) : graph :=
  if negb (terminated (b_term (blk g from))) && has_incoming g from
  then add_edge (upd g from (set_term TGoto)) from after
  else g.

(** builder.rs:485-495, 538-548, 587-597 *)
Definition loop_back (g : graph) (from header : nat) : graph :=
  if negb (terminated (b_term (blk g from)))
  then add_edge (upd g from (set_term TGoto)) from header
  else g.

(** builder.rs:333-363: the edges out of the block that ends in the condition. *)
Definition branch_edges (g : graph) (c : option bool) (cur th el : nat) : graph :=
  let g := upd g cur (set_term TBranch) in
  match c with
  | Some true => upd (add_edge g cur th) el (push_pred cur)
  | Some false => upd (add_edge g cur el) th (push_pred cur)
  | None => add_edge (add_edge g cur th) cur el
  end.

(** builder.rs:441-445 *)
Definition mark_after (g : graph) (after cur : nat) : graph :=
  if has_incoming g after then g else upd g after (push_pred cur).

(** [build_expression] when [body] is true (builder.rs:161-185: braces are
    opened), [build_statement] otherwise (builder.rs:224-312). *)
Fixpoint build (stopping : list text) (body : bool) (s : stmt)
    (g : graph) (cur : nat) (ls : loops) {struct s} : graph * nat :=
  match body, s with
  | true, Block _ l => build_list (fun s g c => build stopping false s g c ls) l g cur
  | _, _ =>
    if negb (has_incoming g cur) then (add_statement g cur s, cur)
    else match s with
    | Break _ => (build_break g cur ls, cur)
    | Next _ => (build_next g cur ls, cur)
    | Return _ => (build_return g cur, cur)
    | Call _ f =>
        match classify stopping f with
        | KReturn => (build_return g cur, cur)
        | KBreak => (build_break g cur ls, cur)
        | KNext => (build_next g cur ls, cur)
        | KStop => (build_stop g cur, cur)
        | KOther => (add_statement g cur s, cur)
        end
    | If _ c t e =>                                        (* builder.rs:315-448 *)
        let th := length g in
        let el := S th in
        let after := S el in
        let cv := const_cond c in
        let g := branch_edges (new_blocks g 3) cv cur th el in
        let g :=
          if is_false cv then upd g th (push_stmt t)
          else let '(g, e1) := build stopping true t g th ls in join_branch g e1 after in
        let g :=
          match e with
          | Some e =>
              if is_true cv then upd g el (push_stmt e)
              else let '(g, e2) := build stopping true e g el ls in join_branch g e2 after
          | None => add_edge (upd g el (set_term TGoto)) el after
          end in
        (mark_after g after cur, after)
    | For _ b | While _ _ b =>                             (* builder.rs:451-554 *)
        let header := length g in
        let lbody := S header in
        let after := S lbody in
        let g := upd (new_blocks g 3) cur (set_term TGoto) in
        let g := add_edge g cur header in
        let g := upd g header (set_term TLoop) in
        let g := add_edge (add_edge g header lbody) header after in
        let '(g, e1) := build stopping true b g lbody ((header, after) :: ls) in
        (loop_back g e1 header, after)
    | Repeat _ b =>                                        (* builder.rs:557-603 *)
        let lbody := length g in
        let after := S lbody in
        let g := upd (new_blocks g 2) cur (set_term TGoto) in
        let g := add_edge g cur lbody in
        let g := add_edge g lbody after in
        let '(g, e1) := build stopping true b g lbody ((lbody, after) :: ls) in
        (loop_back g e1 lbody, after)
    | Simple _ | Block _ _ => (add_statement g cur s, cur)
    end
  end.

(** builder.rs:149-158, 662-668 *)
Definition build_cfg (stopping : list text) (fbody : stmt) : graph :=
  fst (build stopping true fbody new_graph entry []).

(** builder.rs:671-680 *)
Definition build_cfg_top_level (stopping : list text) (l : list stmt) : graph :=
  fst (build_list (fun s g c => build stopping false s g c []) l new_graph entry).

(** ** Reachability — reachability.rs *)

(** reachability.rs:307-325.  The [Vec] used as a stack has its top at the
    head here; [fuel] bounds the iterations of the [while] loop and is proved
    sufficient (Proofs/CfgReach.v). *)
Fixpoint reach_loop (fuel : nat) (g : graph) (stack visited : list nat) : list nat :=
  match fuel with
  | 0 => visited
  | S fuel =>
      match stack with
      | [] => visited
      | b :: stack =>
          if memn b visited then reach_loop fuel g stack visited
          else
            let visited := b :: visited in
            reach_loop fuel g
              (rev (filter (fun s => negb (memn s visited)) (b_succ (blk g b))) ++ stack)
              visited
      end
  end.

Definition reach_fuel (g : graph) : nat :=
  S (S (fold_right (fun b n => length (b_succ b) + n) 0 g)).
Definition find_reachable (g : graph) : list nat := reach_loop (reach_fuel g) g [entry] [].

(** reachability.rs:15-30 *)
Inductive reason :=
| AfterReturn | AfterBreak | AfterStop | AfterNext
| AfterBranchTerminating | DeadBranch | NoPathFromEntry.

(** [std::mem::discriminant] equality, reachability.rs:109-110. *)
Definition reason_eqb (a b : reason) : bool :=
  match a, b with
  | AfterReturn, AfterReturn | AfterBreak, AfterBreak | AfterStop, AfterStop
  | AfterNext, AfterNext | AfterBranchTerminating, AfterBranchTerminating
  | DeadBranch, DeadBranch | NoPathFromEntry, NoPathFromEntry => true
  | _, _ => false
  end.

Definition cache := list (nat * option reason).
Fixpoint cache_get (c : cache) (i : nat) : option (option reason) :=
  match c with
  | [] => None
  | (j, r) :: c => if i =? j then Some r else cache_get c i
  end.

(** reachability.rs:244-296.  [fuel] bounds the recursion depth: every nested
    call has one more block in the cache. *)
Fixpoint term_in_path (fuel : nat) (g : graph) (i : nat) (c : cache) : option reason * cache :=
  match fuel with
  | 0 => (None, c)
  | S fuel =>
      match cache_get c i with
      | Some r => (r, c)
      | None =>
          let c := (i, None) :: c in
          if negb (i <? length g) then (None, c)
          else
            let b := blk g i in
            let '(r, c) :=
              match b_term b with
              | TReturn => (Some AfterReturn, c)
              | TStop => (Some AfterStop, c)
              | TBreak | TNext => (None, c)
              | TGoto =>
                  match b_succ b with
                  | n :: _ => term_in_path fuel g n c
                  | [] => (None, c)
                  end
              | TBranch =>
                  (fix all (l : list nat) (acc : option reason) (c : cache) :=
                     match l with
                     | [] => (acc, c)
                     | n :: l =>
                         match term_in_path fuel g n c with
                         | (Some r, c) => all l (Some r) c
                         | (None, c) => (None, c)
                         end
                     end) (b_succ b) None c
              | TLoop | TNone => (None, c)
              end in
            (r, (i, r) :: c)
      end
  end.

(** reachability.rs:199-238 *)
Definition branch_reason (g : graph) (i : nat) : option reason :=
  if negb (i <? length g) then None
  else
    match b_succ (blk g i) with
    | [] => None
    | succs =>
        let '(all, ret, stp, _) :=
          fold_left
            (fun acc n =>
               let '(all, ret, stp, c) := acc in
               match term_in_path (S (length g)) g n c with
               | (Some AfterReturn, c) => (all, true, stp, c)
               | (Some AfterStop, c) => (all, ret, true, c)
               | (Some _, c) => (all, ret, stp, c)
               | (None, c) => (false, ret, stp, c)
               end)
            succs (true, false, false, ([] : cache)) in
        if all && (ret || stp) then Some AfterBranchTerminating else None
    end.

(** First element for which [f] answers. *)
Fixpoint find_map {A B} (f : A -> option B) (l : list A) : option B :=
  match l with
  | [] => None
  | x :: l => match f x with Some y => Some y | None => find_map f l end
  end.

(** reachability.rs:143-193 *)
Definition unreachable_reason (g : graph) (i : nat) : reason :=
  let b := blk g i in
  let preds := filter (fun p => p <? length g) (b_pred b) in
  match find_map (fun p => match b_term (blk g p) with
                           | TReturn => Some AfterReturn
                           | TBreak => Some AfterBreak
                           | TNext => Some AfterNext
                           | TStop => Some AfterStop
                           | _ => None
                           end) preds with
  | Some r => r
  | None =>
      match find_map (fun p => match b_term (blk g p) with
                               | TBranch => branch_reason g p
                               | _ => None
                               end) preds with
      | Some r => r
      | None =>
          match b_pred b with
          | [] => NoPathFromEntry
          | _ => if existsb (fun p => memn i (b_succ (blk g p))) (b_pred b)
                 then NoPathFromEntry else DeadBranch
          end
      end
  end.

(** reachability.rs:82-95: the range reported for one block. *)
Definition block_range (b : block) : option range :=
  match b_stmts b with
  | s :: rest => Some (cover (rng s) (rng (last rest s)))
  | [] => b_range b
  end.

(** reachability.rs:70-97 *)
Definition unreachable_blocks (g : graph) : list (range * reason) :=
  let reachable := find_reachable g in
  flat_map (fun i =>
    if (i =? entry) || (i =? exit_) || memn i reachable then []
    else match block_range (blk g i) with
         | Some r => [(r, unreachable_reason g i)]
         | None => []
         end) (seq 0 (length g)).

(** [sort_by_key(range.start())] is a stable sort, reachability.rs:100. *)
Fixpoint insert_by_start (x : range * reason) (l : list (range * reason)) :=
  match l with
  | [] => [x]
  | y :: l' => if r_start (fst x) <=? r_start (fst y) then x :: l
               else y :: insert_by_start x l'
  end.
Definition sort_by_start (l : list (range * reason)) : list (range * reason) :=
  fold_right insert_by_start [] l.

(** reachability.rs:105-131: merge contiguous ranges with the same reason. *)
Fixpoint merge (cur : range * reason) (l : list (range * reason)) : list (range * reason) :=
  match l with
  | [] => [cur]
  | x :: l =>
      if reason_eqb (snd cur) (snd x) && (r_start (fst x) =? r_end (fst cur))
      then merge (cover (fst cur) (fst x), snd cur) l
      else cur :: merge x l
  end.

(** reachability.rs:63-134 *)
Definition find_unreachable_code (g : graph) : list (range * reason) :=
  match sort_by_start (unreachable_blocks g) with
  | [] => []
  | x :: l => merge x l
  end.

(** unreachable_code.rs:47-72: the ranges (and reasons) of the diagnostics of
    one function definition with body [fbody]. *)
Definition unreachable_code (stopping : list text) (fbody : stmt) : list (range * reason) :=
  find_unreachable_code (build_cfg stopping fbody).

(** unreachable_code.rs:80-113 *)
Definition unreachable_code_top_level (stopping : list text) (l : list stmt)
  : list (range * reason) :=
  filter (fun x => match snd x with AfterReturn | NoPathFromEntry => false | _ => true end)
    (find_unreachable_code (build_cfg_top_level stopping l)).
