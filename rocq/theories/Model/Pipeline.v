(** From the text of an R file to its diagnostics with their byte ranges and
    fixes: [get_checks], /repo/crates/jarl-core/src/check.rs:121-215, with the
    rules and the search of Model/Traverse.v.  With this linter, the loop of
    [lint_fix] (Model/Driver.v) and [apply_fixes] (Model/Fix.v) become
    functions of the text of a file.

    Simplifications: air's parser (check.rs:131-139) is R's, as given in
    Spec/RLex.v; the document-level checks (check.rs:165-170: suppression comments, top-level
    unreachable code, findings of the package analysis) are left out: see
    Model/{Suppress,Cfg,Package}.v; a rule that fails, like a text that cannot be
    read, gives [None] (the code returns an error, or panics); what true_false_symbol finds in
    [for (T in x)] is given the range of the loop (the code gives that of the variable,
    analyze/expression.rs:54-57). *)
From Verif Require Model.Config.
From Verif Require Export Spec.RLex Model.RuleOptions Model.Traverse Model.Fix Model.Driver.

(** diagnostic ranges are [text_trimmed_range] of a node: from the first byte
    of its first token to the last byte of its last token.  [i] is the number of the first
    token in the file, [n] how many there are. *)
Definition no_span : span := (0, 0).
Definition node_span (spans : list span) (i n : nat) : span :=
  (fst (nth i spans no_span), snd (nth (i + n - 1) spans no_span)).

(** The number of the first token of the node reported on, in statement [j]. *)
Definition first_token (p : prog) (j : nat) (r : report) : nat :=
  length (sep_before [TNl] (map toks (firstn j p))) + length (pre_toks (at_frames r)).
Definition report_span (spans : list span) (p : prog) (j : nat) (r : report) : span :=
  node_span spans (first_token p j r) (length (toks (at_node r))).

(** utils.rs:404-408 [node_contains_comments], from the comments and line
    breaks of the text: a comment belongs to the token before it on its line,
    and otherwise to the token after it (biome's trivia rules).
    [leading]: a comment belongs to the first token of the node; [trailing]: to its
    last token; [inside]: some comment belongs to a token of the node. *)
Fixpoint comments (fresh : bool) (prev_end : nat) (ps : list placed) : list (nat + nat) :=
  (* [inl e]: the comment belongs to the token that ends at [e]; [inr a]: to the token
     that starts at or after [a] *)
  match ps with
  | [] => []
  | (RComment, _, (a, b)) :: r => (if fresh then inr b else inl prev_end) :: comments fresh prev_end r
  | (RNl, _, _) :: r => comments true prev_end r
  | (RSpace, _, _) :: r => comments fresh prev_end r
  | (_, _, (a, b)) :: r => comments false b r
  end.
Definition owner_end (spans : list span) (c : nat + nat) : nat :=
  match c with
  | inl e => e
  | inr a => match find (fun s : span => a <=? fst s) spans with Some s => snd s | None => 0 end
  end.
Definition node_contains_comments (spans : list span) (cs : list (nat + nat)) (node : span) : bool :=
  let inside c := let e := owner_end spans c in (fst node <? e) && (e <=? snd node) in
  let trailing c := match c with inl e => e =? snd node | inr _ => false end in
  let leading c :=
    match c with
    | inr a => match find (fun s : span => a <=? fst s) spans with Some s => fst s =? fst node | None => false end
    | inl _ => false
    end in
  existsb inside cs && negb (existsb trailing cs) && negb (existsb leading cs).

(** The rules that run, and the options they run with: check.rs:145-147,
    checker.rs:43-45.  unreachable_code is an argument (Model/Traverse.v). *)
Definition settings_of (c : Config.config) (o : rule_options) (unreach : rule_fn) : settings :=
  mk_settings (fun n => existsb (fun r => teqb n (Rules.rule_name r)) (Config.c_rules_to_apply c))
    (o_assignment o) (o_implicit o) (o_dup_args o) (o_undesirable o) unreach.

(** The [Fix] of a rule: a rule without one has [Fix::empty]; [to_skip] is
    [node_contains_comments], except in assignment.rs:111,
    true_false_symbol.rs:86 and numeric_leading_zero.rs:58 (the latter two are about one
    token).
    Simplification: the text of a fix is its tokens in the usual spacing
    (Spec/RLex.v [show]); the code copies the parts it keeps from the source.  The
    range reported by assignment and repeat is a part of the node; here it is
    the node (the range of the fix, as in the code). *)
Definition fix_of (spans : list span) (cs : list (nat + nat)) (n : text) (sp : span) (r : report) : rfix :=
  match new_text r with
  | Some c => mk_fix (show c) (fst sp) (snd sp)
                (negb (teqb n (lit "assignment")) && node_contains_comments spans cs sp)
  | None => empty_fix
  end.
Definition diag_of (spans : list span) (cs : list (nat + nat)) (p : prog) (f : nat * found) : diag :=
  let '(j, (n, r)) := f in
  let sp := report_span spans p j r in
  mk_diag n (fst sp) (snd sp) (fix_of spans cs n sp r).

(** check.rs:121-215 *)
Definition get_checks (c : Config.config) (o : rule_options) (unreach : rule_fn) (t : text) : option (list diag) :=
  match pieces t with
  | None => None
  | Some ps =>
      match tokens t with
      | None => None
      | Some pts =>
          match parse (map fst pts) with
          | None => None
          | Some p =>
              match check_file (settings_of c o unreach) p with
              | ROk fs =>
                  Some (map (Config.filter_fix c)
                    (map (diag_of (map snd pts) (comments true 0 (place_pieces 0 ps)) p) fs))
              | _ => None
              end
          end
      end
  end.

(** One pass of the loop of [lint_fix] (check.rs:96-110) on the text of a file. *)
Definition one_pass (c : Config.config) (o : rule_options) (unreach : rule_fn) (t : text) : option (bool * text) :=
  match get_checks c o unreach t with
  | Some ds => apply_fixes (map d_fix ds) t
  | None => None
  end.
(** [check_path] (check.rs:53-63) on one file, with at most [n] reads and writes. *)
Definition jarl_check (c : Config.config) (o : rule_options) (unreach : rule_fn) (n : nat) (p : path) (fs : fsys)
  : fsys * option outcome :=
  check_path (fun _ t => get_checks c o unreach t) (fun _ => true) n (Config.fixing_mode c) p fs.
