(** What suppression comments mean (docs/using-jarl.md, "Ignoring violations"), stated on the
    list of comments of a file. *)
From Coq Require Import Sorted.
From Verif Require Import Model.Text Model.Rules Model.Directive Model.Fix Model.Driver Model.Suppress.

(** A comment of the tree: the node it is attached to, the number of enclosing braces, and how
    it stands. *)
Inductive role :=
| Plain (top : bool)   (** on its own line; [top]: before the first expression of the file *)
| Eol                  (** at the end of a line of code *)
| Header (full : bool) (** [#| jarl-ignore-chunk:]; [full]: at least one item follows *)
| Item.                (** [#|   - rule: reason] below a header *)
Record visit := Visit { v_comment : comment; v_node : range; v_level : nat; v_role : role }.

Definition is_item (c : comment) : bool :=
  match parse_array_item (c_text c) with Some _ => true | None => false end.
Definition starts_item (l : list comment) : bool := match l with c :: _ => is_item c | [] => false end.
Fixpoint leading_roles (top in_array : bool) (l : list comment) : list (comment * role) :=
  match l with
  | [] => []
  | c :: r =>
      if in_array && is_item c then (c, Item) :: leading_roles top true r
      else if is_array_header (c_text c) then (c, Header (starts_item r)) :: leading_roles top true r
      else (c, Plain top) :: leading_roles top false r
  end.

(** Something other than blanks stands before [p] on its line. *)
Definition code_before (src : text) (p : nat) : Prop :=
  exists a line b c, src = a ++ line ++ b /\ blen (a ++ line) = p /\
    (a = [] \/ exists a', a = a' ++ [nl]) /\ ~ In nl line /\ In c line /\ is_ws c = false.
Definition end_of_line (src : text) (c : comment) : bool :=
  match is_same_line_as_code (c_range c) src with Some b => b | None => false end.

Definition at_node (nr : range) (level : nat) (cr : comment * role) : visit :=
  Visit (fst cr) nr level (snd cr).
(** The comments of a node: its own, then those of its children. *)
Fixpoint visits (src : text) (n : node) (top : bool) (level : nat) {struct n} : list visit :=
  match n with
  | Node nr _ leading trailing dangling children =>
      map (at_node nr level)
        (leading_roles top false leading
         ++ map (fun c => (c, if end_of_line src c then Eol else Plain false)) trailing
         ++ map (fun c => (c, Plain false)) dangling)
      ++ (fix go (l : list node) (top : bool) : list visit :=
            match l with
            | [] => []
            | c :: r => visits src c top (if node_braced c then S level else level) ++ go r false
            end) children top
  end.

(** The comments of the tree are the comments of the source. *)
Definition at_source (src : text) (c : comment) : Prop :=
  exists a b, src = a ++ c_text c ++ b /\ c_range c = (blen a, blen (a ++ c_text c)).
Fixpoint comments_of (n : node) : list comment :=
  match n with
  | Node _ _ l t d ch => l ++ t ++ d ++ flat_map comments_of ch
  end.
Definition in_source (src : text) (n : node) : Prop := Forall (at_source src) (comments_of n).

(** ** Directives *)
Definition says (v : visit) (k : kind) (r : rule) : Prop :=
  (exists top, v_role v = Plain top) /\
  parse_comment_directive (c_text (v_comment v)) = Some (PValid (Dir k r)).
Definition v_range (v : visit) : range := c_range (v_comment v).

(** Start and end comments of the same rule and nesting level. *)
Definition bracket_of (r : rule) (level : nat) (v : visit) : Prop :=
  v_level v = level /\ (says v KStart r \/ says v KEnd r).
(** [s] and [e] delimit a region for [r]: the next start or end comment of [r] after [s] at the
    same nesting level is the end comment [e]. *)
Definition region (vs : list visit) (r : rule) (s e : visit) : Prop :=
  exists l1 l2 l3, vs = l1 ++ s :: l2 ++ e :: l3 /\
    says s KStart r /\ says e KEnd r /\ v_level s = v_level e /\
    Forall (fun v => ~ bracket_of r (v_level s) v) l2.
Definition region_range (s e : visit) : range := (fst (v_range s), snd (v_range e)).

Definition inside (x y : range) : Prop := fst y <= fst x /\ snd x <= snd y.

(** The four ways a comment covers a diagnostic. *)
Inductive covers (vs : list visit) (d : diag) : visit -> Prop :=
| by_file v r : In v vs -> d_rule d = rule_name r ->
    v_role v = Plain true -> says v KFile r -> covers vs d v
| by_chunk v r : In v vs -> d_rule d = rule_name r ->
    v_role v = Item -> parse_array_item (c_text (v_comment v)) = Some (PValid (Dir KChunk r)) ->
    covers vs d v
| by_region s e r : d_rule d = rule_name r -> region vs r s e ->
    inside (d_start d, d_end d) (region_range s e) -> covers vs d s
| by_node v r : In v vs -> d_rule d = rule_name r ->
    says v KIgnore r -> inside (d_start d, d_end d) (v_node v) -> covers vs d v.
Definition covered (vs : list visit) (d : diag) : Prop := exists v, covers vs d v.

(** ** Problems reported about suppression comments *)
Definition directive_comment (v : visit) : Prop :=
  match v_role v with
  | Plain _ | Eol => exists p, parse_comment_directive (c_text (v_comment v)) = Some p
  | Header _ | Item => True
  end.
(** A start comment followed by another start comment of the same rule and level, with no end
    comment in between. *)
Definition overwritten (vs : list visit) (v : visit) : Prop :=
  exists r l1 l2 v' l3, vs = l1 ++ v :: l2 ++ v' :: l3 /\ says v KStart r /\ says v' KStart r /\
    v_level v = v_level v' /\ Forall (fun x => ~ bracket_of r (v_level v) x) l2.
(** Everything the user can see about a comment at range [c]. *)
Definition reported (m : manager) (c : range) : Prop :=
  In c (m_blanket m) \/ In c (m_invalid_chunk m) \/ In c (m_unmatched_start m) \/
  In c (m_unmatched_end m) \/ In c (m_unexplained m) \/ In c (m_misplaced_file m) \/
  In c (m_misplaced m) \/ In c (m_misnamed m).
Definition in_effect (m : manager) (c : range) : Prop :=
  In c (map w_comment (m_files m)) \/ In c (map w_comment (m_chunks m)) \/
  In c (map s_comment (m_regions m)) \/ In c (map s_comment (m_nodes m)).
(** [e] closes a region. *)
Definition closes (vs : list visit) (v : visit) : Prop := exists r s, region vs r s v.
(** [h] is the header of an array with at least one item. *)
Definition heads_items (v : visit) : Prop := v_role v = Header true.

(** A start comment of [r] at nesting level [level] is open after the comments [l]: it is the
    last start or end comment of [r] at that level. *)
Definition opened (l : list visit) (r : rule) (level : nat) (s : visit) : Prop :=
  exists l1 l2, l = l1 ++ s :: l2 /\ says s KStart r /\ v_level s = level /\
    Forall (fun v => ~ bracket_of r level v) l2.

(** ** Which comment gets the credit for hiding a diagnostic
    File level first, then chunk level, regions, annotated expressions. *)
Definition wide_covers (s : wide_sup) (d : diag) : Prop := d_rule d = rule_name (w_rule s).
Definition range_covers (s : range_sup) (d : diag) : Prop :=
  d_rule d = rule_name (s_rule s) /\ inside (d_start d, d_end d) (s_range s).
Definition priority (m : manager) : list (range * (diag -> Prop)) :=
  map (fun s => (w_comment s, wide_covers s)) (m_files m)
  ++ map (fun s => (w_comment s, wide_covers s)) (m_chunks m)
  ++ map (fun s => (s_comment s, range_covers s)) (m_regions m)
  ++ map (fun s => (s_comment s, range_covers s)) (m_nodes m).
Definition credited (m : manager) (d : diag) (c : range) : Prop :=
  exists l1 P l2, priority m = l1 ++ (c, P) :: l2 /\ P d /\ Forall (fun e => ~ snd e d) l1.

(** The manager without the suppressions at the ranges [cs]. *)
Definition without (cs : list range) (m : manager) : manager :=
  let keep c := negb (existsb (range_eqb c) cs) in
  Man (filter (fun s => keep (s_comment s)) (m_regions m))
    (filter (fun s => keep (w_comment s)) (m_files m))
    (filter (fun s => keep (w_comment s)) (m_chunks m))
    (filter (fun s => keep (s_comment s)) (m_nodes m))
    (m_any m) (m_blanket m) (m_invalid_chunk m) (m_unmatched_start m) (m_unmatched_end m)
    (m_unexplained m) (m_misplaced_file m) (m_misplaced m) (m_misnamed m) (m_used m).

(** ** Source order: the trailing comments of a node come after those of its children. *)
Fixpoint source_order (n : node) : list comment :=
  match n with
  | Node _ _ l t d ch => l ++ d ++ flat_map source_order ch ++ t
  end.
Definition before (a b : comment) : Prop := snd (c_range a) <= fst (c_range b).
Definition in_order (n : node) : Prop :=
  StronglySorted before (source_order n) /\
  Forall (fun c => fst (c_range c) <= snd (c_range c)) (source_order n).
Fixpoint trailing_of (n : node) : list comment :=
  match n with
  | Node _ _ l t d ch => t ++ flat_map trailing_of ch
  end.
(** No trailing comment is a start or end comment. *)
Definition brackets_lead (n : node) : Prop :=
  Forall (fun c => forall r, parse_comment_directive (c_text c) <> Some (PValid (Dir KStart r)) /\
                             parse_comment_directive (c_text c) <> Some (PValid (Dir KEnd r)))
    (trailing_of n).

(** The report of rule [r] about the comment at [c], without a fix. *)
Definition about_comment (r : rule) (c : range) : diag := mk_diag (rule_name r) (fst c) (snd c) (mk_fix [] 0 0 true).
