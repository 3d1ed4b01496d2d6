(** Suppression comments: crates/jarl-core/src/suppression.rs.

    The syntax tree and the attachment of comments to nodes are inputs: they come from the
    parser and from [biome_formatter::comments] ([Comments::from_node] with the placement rule
    of suppression.rs:36-73), which are not modelled.  A [node] carries its trimmed range,
    whether its kind is R_BRACED_EXPRESSIONS, its leading, trailing and dangling comments in
    order, and its children in order.  [None] is a panic. *)
From Verif Require Import Model.Text Model.Base Model.Rules Model.Directive Model.Driver.

(** [TextRange]: byte offsets, start and end. *)
Definition range := (nat * nat)%type.
Definition range_eqb (a b : range) : bool := (fst a =? fst b) && (snd a =? snd b).
(** [TextRange::new] asserts [start <= end]. *)
Definition new_range (s e : nat) : option range := if s <=? e then Some (s, e) else None.
(** [TextRange::contains_range] *)
Definition contains_range (outer inner : range) : bool :=
  (fst outer <=? fst inner) && (snd inner <=? snd outer).

Record comment := Cmt { c_text : text; c_range : range }.
Inductive node := Node (rng : range) (braced : bool)
  (leading trailing dangling : list comment) (children : list node).
Definition node_range (n : node) : range := let 'Node r _ _ _ _ _ := n in r.
Definition node_braced (n : node) : bool := let 'Node _ b _ _ _ _ := n in b.

(** [FileSuppression], [ChunkSuppression] (no range), [SkipRegion], [NodeSuppression],
    suppression.rs:80-119 *)
Record wide_sup := Wide { w_rule : rule; w_comment : range }.
Record range_sup := RSup { s_range : range; s_rule : rule; s_comment : range }.

(** [CommentCollector], suppression.rs:122-154.  The hash map [starts] is an association list
    with at most one entry per key; its second component always equals the first (:445) and is
    dropped. *)
Record collector := Coll {
  starts : list ((rule * nat) * range);
  regions : list range_sup;
  files : list wide_sup;
  chunks : list wide_sup;
  nodes : list range_sup;
  blanket : list range;
  invalid_chunk : list range;
  unexplained : list range;
  misplaced_file : list range;
  misplaced : list range;
  misnamed : list range;
  unmatched_end : list range;
  any_valid : bool }.
(** [CommentCollector::new], :156-175 *)
Definition coll0 : collector := Coll [] [] [] [] [] [] [] [] [] [] [] [] false.

(** Equality of [Rule]s (derived in the code); names are distinct ([rule_name_inj]). *)
Definition rule_eqb (a b : rule) : bool := teqb (rule_name a) (rule_name b).
Definition key_eqb (a b : rule * nat) : bool := rule_eqb (fst a) (fst b) && (snd a =? snd b).
(** [HashMap::insert], [HashMap::remove] *)
Definition starts_remove (k : rule * nat) (l : list ((rule * nat) * range)) :=
  filter (fun e => negb (key_eqb k (fst e))) l.
Definition starts_insert (k : rule * nat) (r : range) l := (k, r) :: starts_remove k l.
Definition starts_get (k : rule * nat) (l : list ((rule * nat) * range)) : option range :=
  match find (fun e => key_eqb k (fst e)) l with Some e => Some (snd e) | None => None end.

Definition set_starts s c := Coll s (regions c) (files c) (chunks c) (nodes c) (blanket c) (invalid_chunk c) (unexplained c) (misplaced_file c) (misplaced c) (misnamed c) (unmatched_end c) (any_valid c).
Definition set_valid c := Coll (starts c) (regions c) (files c) (chunks c) (nodes c) (blanket c) (invalid_chunk c) (unexplained c) (misplaced_file c) (misplaced c) (misnamed c) (unmatched_end c) true.
Definition push_region x c := Coll (starts c) (regions c ++ [x]) (files c) (chunks c) (nodes c) (blanket c) (invalid_chunk c) (unexplained c) (misplaced_file c) (misplaced c) (misnamed c) (unmatched_end c) (any_valid c).
Definition push_file x c := Coll (starts c) (regions c) (files c ++ [x]) (chunks c) (nodes c) (blanket c) (invalid_chunk c) (unexplained c) (misplaced_file c) (misplaced c) (misnamed c) (unmatched_end c) (any_valid c).
Definition push_chunk x c := Coll (starts c) (regions c) (files c) (chunks c ++ [x]) (nodes c) (blanket c) (invalid_chunk c) (unexplained c) (misplaced_file c) (misplaced c) (misnamed c) (unmatched_end c) (any_valid c).
Definition push_node x c := Coll (starts c) (regions c) (files c) (chunks c) (nodes c ++ [x]) (blanket c) (invalid_chunk c) (unexplained c) (misplaced_file c) (misplaced c) (misnamed c) (unmatched_end c) (any_valid c).
Definition push_blanket x c := Coll (starts c) (regions c) (files c) (chunks c) (nodes c) (blanket c ++ [x]) (invalid_chunk c) (unexplained c) (misplaced_file c) (misplaced c) (misnamed c) (unmatched_end c) (any_valid c).
Definition push_invalid_chunk x c := Coll (starts c) (regions c) (files c) (chunks c) (nodes c) (blanket c) (invalid_chunk c ++ [x]) (unexplained c) (misplaced_file c) (misplaced c) (misnamed c) (unmatched_end c) (any_valid c).
Definition push_unexplained x c := Coll (starts c) (regions c) (files c) (chunks c) (nodes c) (blanket c) (invalid_chunk c) (unexplained c ++ [x]) (misplaced_file c) (misplaced c) (misnamed c) (unmatched_end c) (any_valid c).
Definition push_misplaced_file x c := Coll (starts c) (regions c) (files c) (chunks c) (nodes c) (blanket c) (invalid_chunk c) (unexplained c) (misplaced_file c ++ [x]) (misplaced c) (misnamed c) (unmatched_end c) (any_valid c).
Definition push_misplaced x c := Coll (starts c) (regions c) (files c) (chunks c) (nodes c) (blanket c) (invalid_chunk c) (unexplained c) (misplaced_file c) (misplaced c ++ [x]) (misnamed c) (unmatched_end c) (any_valid c).
Definition push_misnamed x c := Coll (starts c) (regions c) (files c) (chunks c) (nodes c) (blanket c) (invalid_chunk c) (unexplained c) (misplaced_file c) (misplaced c) (misnamed c ++ [x]) (unmatched_end c) (any_valid c).
Definition push_unmatched_end x c := Coll (starts c) (regions c) (files c) (chunks c) (nodes c) (blanket c) (invalid_chunk c) (unexplained c) (misplaced_file c) (misplaced c) (misnamed c) (unmatched_end c ++ [x]) (any_valid c).

(** [process_comment], suppression.rs:426-517 *)
Definition process_comment (c : comment) (nrange : range) (allow_file is_trailing : bool)
  (level : nat) (k : collector) : option collector :=
  let cr := c_range c in
  match parse_comment_directive (c_text c) with
  | None => Some k
  | Some p =>
      if is_trailing then Some (push_misplaced cr k)
      else
        match p with
        | PValid (Dir kd r) =>
            let k := set_valid k in
            match kd with
            | KStart => Some (set_starts (starts_insert (r, level) cr (starts k)) k)
            | KEnd =>
                match starts_get (r, level) (starts k) with
                | Some sr =>
                    let k := set_starts (starts_remove (r, level) (starts k)) k in
                    match new_range (fst sr) (snd cr) with
                    | None => None
                    | Some rg => Some (push_region (RSup rg r sr) k)
                    end
                | None => Some (push_unmatched_end cr k)
                end
            | KChunk => Some (push_invalid_chunk cr k)
            | KFile =>
                if allow_file then Some (push_file (Wide r cr) k)
                else Some (push_misplaced_file cr k)
            | KIgnore => Some (push_node (RSup nrange r cr) k)
            end
        | PBlanket => Some (push_blanket cr k)
        | PMissing => Some (push_unexplained cr k)
        | PMisnamed => Some (push_misnamed cr k)
        end
  end.

(** The inner [while] of suppression.rs:313-345: consume the items of a Quarto array. *)
Fixpoint array_items (l : list comment) (found : bool) (k : collector)
  : bool * list comment * collector :=
  match l with
  | [] => (found, [], k)
  | c :: r =>
      match parse_array_item (c_text c) with
      | Some (PValid (Dir KChunk rl)) =>
          array_items r true (push_chunk (Wide rl (c_range c)) (set_valid k))
      | Some PMissing => array_items r true (push_unexplained (c_range c) k)
      | Some PMisnamed => array_items r true (push_misnamed (c_range c) k)
      | _ => (found, l, k)
      end
  end.

(** The leading comments of a node, suppression.rs:296-365.  [fuel]: one unit per comment
    suffices ([i] increases in every iteration). *)
Fixpoint collect_leading (fuel : nat) (l : list comment) (nrange : range) (first : bool)
  (level : nat) (k : collector) : option collector :=
  match fuel, l with
  | _, [] => Some k
  | O, _ => Some k (* unreachable with fuel = length l *)
  | S fuel, c :: r =>
      if is_array_header (c_text c) then
        let '(found, rest, k) := array_items r false k in
        collect_leading fuel rest nrange first level
          (if found then k else push_blanket (c_range c) k)
      else
        match process_comment c nrange first false level k with
        | None => None
        | Some k => collect_leading fuel r nrange first level k
        end
  end.

(** [is_same_line_as_code], suppression.rs:403-423 *)
Definition is_same_line_as_code (cr : range) (src : text) : option bool :=
  if fst cr =? 0 then Some false
  else
    match bsplit (fst cr) src with
    | None => None
    | Some (before, _) =>
        let line := match find_char nl (rev before) with Some (a, _) => a | None => rev before end in
        Some (existsb (fun c => negb (is_ws c)) line)
    end.

(** Trailing comments, suppression.rs:367-384 *)
Fixpoint collect_trailing (l : list comment) (nrange : range) (src : text) (level : nat)
  (k : collector) : option collector :=
  match l with
  | [] => Some k
  | c :: r =>
      match is_same_line_as_code (c_range c) src with
      | None => None
      | Some b =>
          match process_comment c nrange false b level k with
          | None => None
          | Some k => collect_trailing r nrange src level k
          end
      end
  end.

(** Dangling comments, suppression.rs:386-397 *)
Fixpoint collect_dangling (l : list comment) (nrange : range) (level : nat)
  (k : collector) : option collector :=
  match l with
  | [] => Some k
  | c :: r =>
      match process_comment c nrange false false level k with
      | None => None
      | Some k => collect_dangling r nrange level k
      end
  end.

Definition obind {A B} (x : option A) (f : A -> option B) : option B :=
  match x with Some a => f a | None => None end.

(** [collect_all_directives], suppression.rs:280-420 *)
Fixpoint collect (src : text) (n : node) (first : bool) (level : nat) (k : collector)
  {struct n} : option collector :=
  match n with
  | Node nrange _ leading trailing dangling children =>
      obind (collect_leading (length leading) leading nrange first level k) (fun k =>
      obind (collect_trailing trailing nrange src level k) (fun k =>
      obind (collect_dangling dangling nrange level k) (fun k =>
        (fix go (l : list node) (first : bool) (k : collector) : option collector :=
           match l with
           | [] => Some k
           | c :: r =>
               obind (collect src c first (if node_braced c then S level else level) k)
                 (go r false)
           end) children first k)))
  end.

(** [SuppressionManager], suppression.rs:179-212, without [comments]. *)
Record manager := Man {
  m_regions : list range_sup;
  m_files : list wide_sup;
  m_chunks : list wide_sup;
  m_nodes : list range_sup;
  m_any : bool;
  m_blanket : list range;
  m_invalid_chunk : list range;
  m_unmatched_start : list range;
  m_unmatched_end : list range;
  m_unexplained : list range;
  m_misplaced_file : list range;
  m_misplaced : list range;
  m_misnamed : list range;
  m_used : list range }.

Definition is_nil {A} (l : list A) : bool := match l with [] => true | _ => false end.

(** [from_node], suppression.rs:220-277, after the fast path.  The order of
    [m_unmatched_start] is that of a hash map in the code: nothing is claimed about it. *)
Definition from_node_slow (root : node) (src : text) : option manager :=
  obind (collect src root true 0 coll0) (fun k =>
  Some (Man (regions k) (files k) (chunks k) (nodes k)
    (negb (is_nil (regions k)) || negb (is_nil (files k)) || negb (is_nil (chunks k)) || any_valid k)
    (blanket k) (invalid_chunk k) (map snd (starts k)) (unmatched_end k) (unexplained k)
    (misplaced_file k) (misplaced k) (misnamed k) [])).
Definition empty_manager : manager := Man [] [] [] [] false [] [] [] [] [] [] [] [] [].
Definition from_node (root : node) (src : text) : option manager :=
  if contains (lit "jarl-ignore") src then from_node_slow root src else Some empty_manager.

Definition d_range (d : diag) : range := (d_start d, d_end d).

(** [is_diagnostic_suppressed], suppression.rs:632-669: the comment marked as used, if any.
    The four loops return at the first match. *)
Definition first_match (m : manager) (d : diag) : option range :=
  match from_name (d_rule d) with
  | None => None
  | Some r =>
      match find (fun s => rule_eqb (w_rule s) r) (m_files m) with
      | Some s => Some (w_comment s)
      | None =>
      match find (fun s => rule_eqb (w_rule s) r) (m_chunks m) with
      | Some s => Some (w_comment s)
      | None =>
      match find (fun s => rule_eqb (s_rule s) r && contains_range (s_range s) (d_range d)) (m_regions m) with
      | Some s => Some (s_comment s)
      | None =>
      match find (fun s => rule_eqb (s_rule s) r && contains_range (s_range s) (d_range d)) (m_nodes m) with
      | Some s => Some (s_comment s)
      | None => None
      end end end end
  end.
Definition use (c : range) (m : manager) : manager :=
  Man (m_regions m) (m_files m) (m_chunks m) (m_nodes m) (m_any m) (m_blanket m)
    (m_invalid_chunk m) (m_unmatched_start m) (m_unmatched_end m) (m_unexplained m)
    (m_misplaced_file m) (m_misplaced m) (m_misnamed m) (c :: m_used m).
(** The filter of suppression.rs:625-628 *)
Fixpoint filter_loop (m : manager) (ds : list diag) : manager * list diag :=
  match ds with
  | [] => (m, [])
  | d :: r =>
      match first_match m d with
      | Some c => filter_loop (use c m) r
      | None => let '(m, out) := filter_loop m r in (m, d :: out)
      end
  end.
(** [filter_diagnostics], suppression.rs:618-629 *)
Definition filter_diagnostics (m : manager) (ds : list diag) : manager * list diag :=
  if m_any m then filter_loop m ds else (m, ds).

Definition is_used (m : manager) (c : range) : bool := existsb (range_eqb c) (m_used m).
(** [get_unused_suppressions], suppression.rs:673-704 *)
Definition get_unused (m : manager) : list range :=
  filter (fun c => negb (is_used m c))
    (map w_comment (m_files m) ++ map w_comment (m_chunks m) ++
     map s_comment (m_regions m) ++ map s_comment (m_nodes m)).
