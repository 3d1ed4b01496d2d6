(** Specification vocabulary for the command line (C24, C25, C28, C50-C56). *)
From Coq Require Import Permutation Sorting.Sorted.
From Verif Require Import Model.Text Model.Base Model.Rules Model.Fix Model.Driver Model.Cli Spec.DriverSpec.

(** ** Directories *)
Definition above (d p : dpath) : Prop := exists r, p = d ++ r.
(** [d] is the deepest directory at or above [p] that has a configuration file, and its settings
    are [s]. *)
Definition nearest (config_at : dpath -> cfile) (p d : dpath) (s : csettings) : Prop :=
  above d p /\ config_at d = GoodConfig s /\
  forall d', above d' p -> config_at d' <> NoConfig -> length d' <= length d.
Definition no_config_above (config_at : dpath -> cfile) (p : dpath) : Prop :=
  forall d, above d p -> config_at d = NoConfig.
(** [p] is a file reached from one of the inputs: the input itself, or a file below an input whose
    intermediate directories are all visited by the walk for nested configurations. *)
Definition reached (config_at : dpath -> cfile) (subdirs : dpath -> list dpath) (inputs : list dpath) (p : dpath) : Prop :=
  config_at p = NoConfig /\
  exists i, In i inputs /\ above i p /\
    forall d, above i d -> above d p -> d = i \/ d = p \/ In d (subdirs i).
(** The configuration that docs/config.md:139-150 promises for a file. *)
Definition documented_settings (config_at : dpath -> cfile) (user_dir : option dpath) (p : dpath) (o : option csettings) : Prop :=
  (exists d s, nearest config_at p d s /\ o = Some s) \/
  (no_config_above config_at p /\
   match user_dir with
   | Some u => match config_at u with GoodConfig s => o = Some s | _ => o = None end
   | None => o = None
   end).

(** A walk of an input: entries at or below it, no path twice, and only the input has depth 0. *)
Definition walk_of (i : dpath) (es : list entry) : Prop :=
  (forall p n b, In (Entry p n b) es -> above i p) /\
  NoDup (flat_map (fun e => match e with Entry p _ _ => [p] | EntryErr => [] end) es).

(** ** Results *)
Definition found (rs : list fresult) (d : fdiag) : Prop :=
  exists ds, In (fd_file d, inl ds) rs /\ In (fd_diag d) ds.
Definition failed (rs : list fresult) : Prop := exists p e, In (p, inr e) rs.
(** All diagnostics of a run, file after file. *)
Definition all_found (rs : list fresult) : list fdiag :=
  flat_map (fun '(p, r) => match r with inl ds => map (mk_fd p) ds | inr _ => [] end) rs.
Definition of_rule (name : text) (ds : list fdiag) : list fdiag :=
  filter (fun d => teqb (d_rule (fd_diag d)) name) ds.
(** The exit status that a run with these results and these reported diagnostics must have. *)
Definition right_status (st : status) (failures : Prop) (shown : list fdiag) : Prop :=
  (st = Error <-> failures) /\
  (st = Failure <-> ~ failures /\ shown <> []) /\
  (st = Success <-> ~ failures /\ shown = []).

(** The user asked for [unused_function] by name, on the command line or in a configuration. *)
Definition asked_by_name (select extend : text) (items : list item) : Prop :=
  (exists s, In s (split_on 44%N select ++ split_on 44%N extend) /\ trim s = lit "unused_function") \/
  (exists d st l, In (d, st) items /\ (cs_select st = Some l \/ cs_extend st = Some l) /\ In (lit "unused_function") l).
(** The threshold in force: the smallest of the configurations, 50 without any. *)
Definition threshold_is (items : list item) (n : nat) : Prop :=
  (items = [] /\ n = 50) \/
  ((exists i, In i items /\ cs_threshold (snd i) = n) /\ forall i, In i items -> n <= cs_threshold (snd i)).

(** Order of the report: by file, then by position. *)
Definition report_order (a b : fdiag) : Prop := fd_cmp a b <> Gt.

(** A diagnostic has an automatic fix of the given kind: its fix is not skipped and not empty, and
    its rule is documented with this kind of fix. *)
Definition offers_fix (k : fix_status) (d : diag) : Prop :=
  f_skip (d_fix d) = false /\ f_content (d_fix d) <> [] /\
  exists r, rule_name r = d_rule d /\ rule_fix r = k.

(** What a run with these results has to report: everything that was found, except that the
    [unused_function] diagnostics are withheld as a whole when there are more of them than the
    threshold and the user did not ask for the rule by name. *)
Definition visible (select extend : text) (items : list item) (rs : list fresult) (shown : list fdiag) : Prop :=
  exists n, threshold_is items n /\
  let count := length (of_rule (lit "unused_function") (all_found rs)) in
  ((asked_by_name select extend items \/ count <= n) /\ Permutation shown (all_found rs)) \/
  (~ asked_by_name select extend items /\ n < count /\
   Permutation shown (filter (fun d => negb (teqb (d_rule (fd_diag d)) (lit "unused_function"))) (all_found rs))).

(** The files handed to the linter, each with the settings of its group. *)
Definition checked (items : list item) (groups : list (option dpath * list dpath)) : list (option csettings * dpath) :=
  flat_map (fun g => map (fun p => (group_settings items (fst g), p)) (snd g)) groups.
(** The settings that the grouping gives to a file. *)
Definition settings_for (items : list item) (p : dpath) : option csettings := group_settings items (group_key items p).

(** docs/config.md:241-252: what is excluded by default. *)
Definition documented_excludes : list text :=
  [lit ".git/"; lit "renv/"; lit "revdep/"; lit "cpp11.R"; lit "RcppExports.R"; lit "extendr-wrappers.R";
   lit "import-standalone-*.R"].

(** ** Which files are checked (C57) *)
(** [globs pat rel dir]: the pattern [pat] of a configuration matches the path [rel] (relative to the
    directory of the configuration), where [dir] says that [rel] is a directory. *)
Definition glob := text -> dpath -> bool -> Prop.
Definition plain_pattern (pat : text) : Prop := forall r, pat <> 33%N :: r.
(** What the external matcher is assumed to do: a set of patterns that are all prefixed by [!]
    ignores what one of them matches; a set of plain patterns selects what one of them matches. *)
Definition matcher_of (ov : dpath -> list text -> dpath -> bool -> omatch) (globs : glob) : Prop :=
  forall root pats rel dir, pats <> [] -> Forall plain_pattern pats ->
    (ov root (map (cons 33%N) pats) rel dir = MIgnore <-> exists pat, In pat pats /\ globs pat rel dir) /\
    (ov root pats rel dir = MWhitelist <-> exists pat, In pat pats /\ globs pat rel dir).
Definition plain_patterns (items : list item) : Prop :=
  forall d s pats, In (d, s) items -> cs_exclude s = Some pats \/ cs_include s = Some pats -> Forall plain_pattern pats.
(** [rel] is [p] seen from [root]; a path outside of [root] is left as it is. *)
Definition seen_from (root p rel : dpath) : Prop :=
  p = root ++ rel \/ (~ above root p /\ rel = p).
(** The file [p], reached [depth] directories below an input, is removed from the walk by one of
    [pats]: the pattern matches the file or a directory between the input and the file. *)
Definition hidden_by (globs : glob) (root : dpath) (pats : list text) (p : dpath) (depth : nat) : Prop :=
  exists input rel q rest pat r,
    p = input ++ rel /\ length rel = depth /\ rel = q ++ rest /\ q <> [] /\
    In pat pats /\ seen_from root (input ++ q) r /\
    exists dir, (dir = true <-> rest <> []) /\ globs pat r dir.
(** [(d, s)] is the configuration of [p]: the deepest one above it. *)
Definition governs (items : list item) (p d : dpath) (s : csettings) : Prop :=
  In (d, s) items /\ above d p /\ forall d' s', In (d', s') items -> above d' p -> length d' <= length d.
(** [pat] as an [include] pattern selects a file: [dir/] stands for everything below [dir]. *)
Definition includes (globs : glob) (pat : text) (rel : dpath) : Prop :=
  ((exists q, pat = q ++ lit "/") /\ globs (pat ++ lit "**") rel false) \/
  (~ (exists q, pat = q ++ lit "/") /\ globs pat rel false).
(** The [exclude] and [include] patterns of the configuration of [p] leave it in. *)
Definition wanted (globs : glob) (items : list item) (p : dpath) : Prop :=
  forall d s rel, governs items p d s -> p = d ++ rel ->
    (forall pats pat, cs_exclude s = Some pats -> In pat pats -> ~ globs pat rel false) /\
    (forall pats, cs_include s = Some pats -> pats <> [] -> exists pat, In pat pats /\ includes globs pat rel).
(** The patterns applied during the walk: those of the first configuration and the default ones,
    unless it or the command line ([--no-default-exclude]) switches the latter off. *)
Definition walk_hides (globs : glob) (cwd : dpath) (no_default : bool) (items : list item) (p : dpath) (depth : nat) : Prop :=
  exists root pats, hidden_by globs root pats p depth /\
  match items with
  | [] => root = cwd /\ no_default = false /\ pats = documented_excludes
  | (d, s) :: _ => root = d /\ (cs_exclude s = Some pats \/
      (no_default = false /\ cs_default_exclude s <> Some false /\ pats = documented_excludes))
  end.
(** The name of the file has the extension of a script or of a document. *)
Definition r_or_rmd_file (p : dpath) : Prop := script_path (last p []) \/ document_path (last p []).
(** What a user expects instead: the patterns of the configuration of [p] itself decide. *)
Definition own_hides (globs : glob) (cwd : dpath) (no_default : bool) (items : list item) (p : dpath) (depth : nat) : Prop :=
  (exists d s pats, governs items p d s /\ hidden_by globs d pats p depth /\
     (cs_exclude s = Some pats \/
      (no_default = false /\ cs_default_exclude s <> Some false /\ pats = documented_excludes))) \/
  ((forall d s, ~ governs items p d s) /\ no_default = false /\ hidden_by globs cwd documented_excludes p depth).
Definition expected_file (globs : glob) (cwd : dpath) (no_default : bool) (items : list item) (entries : list entry) (p : dpath) : Prop :=
  exists depth, In (Entry p depth false) entries /\ (depth = 0 \/ r_or_rmd_file p) /\
    ~ own_hides globs cwd no_default items p depth /\ wanted globs items p.
