(** The command line: discovery of configurations and files
    (crates/jarl-core/src/discovery.rs), grouping, reporting and exit status
    (crates/jarl/src/commands/check.rs:30-268, 435-478, statistics.rs, output_format.rs, main.rs,
    status.rs), and the settings lookup of the language server (crates/jarl-lsp/src/lint.rs:105-134).

    Parameters (inputs, not modelled): the file system as far as it is observed ([config_at],
    [subdirs], the entries yielded by the [ignore] walker), the glob matcher of the [ignore] crate
    and the linter.  [PathResolver] (crate [workspace] of Air, not part of this repository) is
    modelled by [resolve]: the item whose directory is the longest prefix of the path. *)
From Verif Require Import Model.Text Model.Base Model.Rules Model.Fix Model.Driver.

(** A normalised absolute path (fs.rs:34-43): the list of its components. *)
Definition dpath := list text.
Fixpoint peqb (a b : dpath) : bool :=
  match a, b with
  | [], [] => true
  | x :: a', y :: b' => teqb x y && peqb a' b'
  | _, _ => false
  end.
Definition pmem (a : dpath) (l : list dpath) : bool := existsb (peqb a) l.
(** [Path::starts_with]. *)
Fixpoint under (d p : dpath) : bool :=
  match d, p with
  | [], _ => true
  | x :: d', y :: p' => teqb x y && under d' p'
  | _ :: _, [] => false
  end.
(** [Path::strip_prefix(root).unwrap_or(path)]. *)
Fixpoint relative (d p : dpath) : option dpath :=
  match d, p with
  | [], _ => Some p
  | x :: d', y :: p' => if teqb x y then relative d' p' else None
  | _ :: _, [] => None
  end.
Definition relative_or (d p : dpath) : dpath := match relative d p with Some r => r | None => p end.
(** [Path::ancestors]: the path itself, its parent, ..., the root. *)
Fixpoint anc_rev (r : list text) : list dpath :=
  rev r :: match r with [] => [] | _ :: r' => anc_rev r' end.
Definition ancestors (p : dpath) : list dpath := anc_rev (rev p).

(** settings.rs:16-29 [LinterSettings], the fields used by the command line; the remaining fields are
    carried in [cs_rest] (see [Model.Config]). *)
Record csettings := mk_cs {
  cs_select : option (list text); cs_extend : option (list text);
  cs_exclude : option (list text); cs_include : option (list text);
  cs_default_exclude : option bool;
  cs_threshold : nat; cs_rest : nat }.

(** toml.rs [find_jarl_toml_in_directory] and discovery.rs:171-178 [parse_settings]: what a
    directory says. *)
Inductive cfile := NoConfig | BadConfig | GoodConfig (s : csettings).
Definition item := (dpath * csettings)%type.

Section Discover.
Variable config_at : dpath -> cfile.
(** discovery.rs:41-45 [get_user_config_dir]. *)
Variable user_dir : option dpath.

(** discovery.rs:68-91: the walk from a path to the root. *)
Fixpoint walk_up (seen : list dpath) (anc : list dpath) : res (list dpath * list item) :=
  match anc with
  | [] => ROk (seen, [])
  | a :: r =>
      if pmem a seen then ROk (seen, [])
      else match config_at a with
           | BadConfig => RErr
           | GoodConfig s => ROk (a :: seen, [(a, s)])
           | NoConfig =>
               match user_dir with
               | Some u => if peqb a u then ROk (a :: seen, []) else walk_up (a :: seen) r
               | None => walk_up (a :: seen) r
               end
           end
  end.

(** discovery.rs:93-106: the fallback to the user configuration directory, tried when the walk found
    nothing and the directory was not visited before. *)
Definition fallback (seen : list dpath) : res (list dpath * list item) :=
  match user_dir with
  | None => ROk (seen, [])
  | Some u =>
      if pmem u seen then ROk (seen, [])
      else match config_at u with
           | NoConfig => ROk (u :: seen, [])
           | BadConfig => RErr
           | GoodConfig s => ROk (u :: seen, [(u, s)])
           end
  end.

(** discovery.rs:63-107: the first loop. *)
Fixpoint discover_up (seen : list dpath) (paths : list dpath) : res (list dpath * list item) :=
  match paths with
  | [] => ROk (seen, [])
  | p :: ps =>
      rbind (walk_up seen (ancestors p)) (fun '(seen1, found) =>
      rbind (match found with [] => fallback seen1 | _ => ROk (seen1, []) end) (fun '(seen2, extra) =>
      rbind (discover_up seen2 ps) (fun '(seen3, rest) => ROk (seen3, found ++ extra ++ rest))))
  end.

(** discovery.rs:126-168 [discover_nested_settings]: [dirs] are the directories yielded by the
    walker below the root (without the root). *)
Fixpoint nested (found : list dpath) (dirs : list dpath) : res (list dpath * list item) :=
  match dirs with
  | [] => ROk (found, [])
  | d :: ds =>
      if pmem d found then nested found ds
      else match config_at d with
           | NoConfig => nested found ds
           | BadConfig => RErr
           | GoodConfig s => rbind (nested (d :: found) ds) (fun '(f, l) => ROk (f, (d, s) :: l))
           end
  end.
(** discovery.rs:112-121; [subdirs p] is empty when [p] is not a directory. *)
Fixpoint nested_all (subdirs : dpath -> list dpath) (found : list dpath) (paths : list dpath) : res (list item) :=
  match paths with
  | [] => ROk []
  | p :: ps =>
      rbind (nested found (subdirs p)) (fun '(f, l) =>
      rbind (nested_all subdirs f ps) (fun l' => ROk (l ++ l')))
  end.

(** discovery.rs:55-124 [discover_settings]. *)
Definition discover_settings (subdirs : dpath -> list dpath) (paths : list dpath) : res (list item) :=
  rbind (discover_up [] paths) (fun '(_, items) =>
  rbind (nested_all subdirs (map fst items) paths) (fun more => ROk (items ++ more))).
End Discover.

(** [PathResolver::resolve] (external, see above). *)
Fixpoint resolve_from (best : option item) (items : list item) (p : dpath) : option item :=
  match items with
  | [] => best
  | i :: r =>
      let best' := if under (fst i) p then
                     match best with
                     | None => Some i
                     | Some b => if length (fst b) <? length (fst i) then Some i else best
                     end
                   else best in
      resolve_from best' r p
  end.
Definition resolve (items : list item) (p : dpath) : option item := resolve_from None items p.

(** ** Files *)
(** What the [ignore] walker yields: an entry with its depth, or an error. *)
Inductive entry := Entry (p : dpath) (depth : nat) (is_dir : bool) | EntryErr.
Definition path_extension_r (p : dpath) : bool :=
  has_r_extension (last p []) || has_rmd_extension (last p []).
(** discovery.rs:399-447 [FilesVisitor::visit]; [Some None] is a stored error. *)
Definition visit (e : entry) : option (option dpath) :=
  match e with
  | EntryErr => Some None
  | Entry p depth is_dir =>
      if (depth =? 0) && negb is_dir then Some (Some p)
      else if negb is_dir && path_extension_r p then Some (Some p)
      else None
  end.
Definition visit_all (es : list entry) : list (option dpath) :=
  flat_map (fun e => match visit e with Some r => [r] | None => [] end) es.

(** Result of [Override::matched] (crate [ignore]). *)
Inductive omatch := MNone | MIgnore | MWhitelist.
Section Filter.
(** [matched root patterns relative_path]: the patterns are those given to [OverrideBuilder]. *)
Variable matched : dpath -> list text -> dpath -> omatch.

Definition ends_with_slash (t : text) : bool := match rev t with c :: _ => N.eqb c 47%N | [] => false end.
(** discovery.rs:291-352: the per-configuration filter on the discovered files. *)
Definition keep (items : list item) (p : dpath) : bool :=
  match resolve items p with
  | None => true
  | Some (root, st) =>
      let rel := relative_or root p in
      let excluded :=
        match cs_exclude st with
        | Some ((_ :: _) as pats) =>
            match matched root (map (fun t => 33%N :: t) pats) rel with MIgnore => true | _ => false end
        | _ => false
        end in
      if excluded then false
      else match cs_include st with
           | Some ((_ :: _) as pats) =>
               match matched root (map (fun t => if ends_with_slash t then t ++ lit "**" else t) pats) rel with
               | MWhitelist => true | _ => false
               end
           | _ => true
           end
  end.
(** discovery.rs:278-356 [discover_r_file_paths]: from the entries of the walk to the files. *)
Definition discover_files (items : list item) (es : list entry) : list (option dpath) :=
  filter (fun r => match r with Some p => keep items p | None => true end) (visit_all es).
End Filter.

(** discovery.rs:23-31. *)
Definition default_exclude_patterns : list text :=
  [lit ".git/"; lit "renv/"; lit "revdep/"; lit "cpp11.R"; lit "RcppExports.R"; lit "extendr-wrappers.R";
   lit "import-standalone-*.R"].
(** check.rs:45-58: [--no-default-exclude] is written into every discovered configuration. *)
Definition override_default (no_default : bool) (items : list item) : list item :=
  if no_default then
    map (fun '(d, s) => (d, mk_cs (cs_select s) (cs_extend s) (cs_exclude s) (cs_include s) (Some false) (cs_threshold s) (cs_rest s))) items
  else items.
(** discovery.rs:229-254: the root and the patterns (without the leading [!]) handed to the walker.
    The root [.] used without configuration is written [cwd]. *)
Definition walk_patterns (cwd : dpath) (no_default : bool) (items : list item) : dpath * list text :=
  match items with
  | (root, st) :: _ =>
      (root, (match cs_exclude st with Some l => l | None => [] end) ++
             (if match cs_default_exclude st with Some b => b | None => true end then default_exclude_patterns else []))
  | [] => (cwd, if no_default then [] else default_exclude_patterns)
  end.
Section Walk.
(** [Override::matched] for a path relative to the root, and whether it is a directory. *)
Variable ov : dpath -> list text -> dpath -> bool -> omatch.
(** The walk (crate [ignore], external): an entry at a depth of at least one is skipped, with
    everything below it, when the override ignores it.  [entries] are the entries of the same walk
    without the override; the entry [p] at depth [k] was reached through its last [k] prefixes. *)
Definition skipped (root : dpath) (pats : list text) (p : dpath) (depth : nat) (is_dir : bool) : bool :=
  existsb (fun j => match ov root (map (fun t => 33%N :: t) pats) (relative_or root (firstn (length p - j) p))
                              ((0 <? j) || is_dir) with MIgnore => true | _ => false end)
    (seq 0 depth).
Definition walk_entries (rp : dpath * list text) (entries : list entry) : list entry :=
  filter (fun e => match e with
                   | EntryErr => true
                   | Entry p depth is_dir =>
                       match snd rp with [] => true | _ => negb (skipped (fst rp) (snd rp) p depth is_dir) end
                   end) entries.
(** discovery.rs:187-356 [discover_r_file_paths] with [use_linter_settings], as called at
    check.rs:66-70. *)
Definition checked_files (cwd : dpath) (no_default : bool) (items0 : list item) (entries : list entry) : list (option dpath) :=
  let items := override_default no_default items0 in
  discover_files (fun root pats rel => ov root pats rel false) items
    (walk_entries (walk_patterns cwd no_default items) entries).
End Walk.

(** check.rs:66-70: errors of the walk are dropped. *)
Definition ok_paths (l : list (option dpath)) : list dpath :=
  flat_map (fun r => match r with Some p => [p] | None => [] end) l.

(** check.rs:96-104: grouping by the directory of the resolved configuration. *)
Definition key_eqb (a b : option dpath) : bool :=
  match a, b with Some x, Some y => peqb x y | None, None => true | _, _ => false end.
Fixpoint add_to_group (k : option dpath) (p : dpath) (gs : list (option dpath * list dpath)) :=
  match gs with
  | [] => [(k, [p])]
  | (k', l) :: r => if key_eqb k k' then (k', l ++ [p]) :: r else (k', l) :: add_to_group k p r
  end.
Definition group_key (items : list item) (p : dpath) : option dpath := option_map fst (resolve items p).
Definition group_paths (items : list item) (paths : list dpath) : list (option dpath * list dpath) :=
  fold_left (fun gs p => add_to_group (group_key items p) p gs) paths [].
(** check.rs:108-111: the settings of a group. *)
Definition group_settings (items : list item) (k : option dpath) : option csettings :=
  match k with
  | None => None
  | Some d => option_map snd (find (fun i => peqb (fst i) d) items)
  end.

(** lint.rs:105-134 (language server): the first discovered item. *)
Definition lsp_settings (items : list item) : option csettings := option_map snd (hd_error items).

(** ** Reporting *)
(** diagnostic.rs:56-66 and 137-145: a diagnostic with its file. *)
Record fdiag := mk_fd { fd_file : dpath; fd_diag : diag }.
(** [core::cmp] on strings and paths: lexicographic. *)
Fixpoint tcmp (a b : text) : comparison :=
  match a, b with
  | [], [] => Eq
  | [], _ => Lt
  | _, [] => Gt
  | x :: a', y :: b' => match N.compare x y with Eq => tcmp a' b' | c => c end
  end.
Fixpoint pcmp (a b : dpath) : comparison :=
  match a, b with
  | [], [] => Eq
  | [], _ => Lt
  | _, [] => Gt
  | x :: a', y :: b' => match tcmp x y with Eq => pcmp a' b' | c => c end
  end.
(** diagnostic.rs:137-145 [Ord for Diagnostic]: the file, then the range. *)
Definition fd_cmp (a b : fdiag) : comparison :=
  match pcmp (fd_file a) (fd_file b) with
  | Eq => match Nat.compare (d_start (fd_diag a)) (d_start (fd_diag b)) with
          | Eq => Nat.compare (d_end (fd_diag a)) (d_end (fd_diag b))
          | c => c
          end
  | c => c
  end.
Definition fd_leb (a b : fdiag) : bool := match fd_cmp a b with Gt => false | _ => true end.
(** [slice::sort]: a stable sort. *)
Fixpoint insert_by {A} (leb : A -> A -> bool) (x : A) (l : list A) : list A :=
  match l with
  | [] => [x]
  | y :: r => if leb x y then x :: l else y :: insert_by leb x r
  end.
Definition sort_by {A} (leb : A -> A -> bool) (l : list A) : list A := fold_right (insert_by leb) [] l.

(** diagnostic.rs:111-127. *)
Definition fix_kind (d : diag) : option fix_status :=
  if f_skip (d_fix d) || (match f_content (d_fix d) with [] => true | _ => false end) then None
  else option_map rule_fix (from_name (d_rule d)).
Definition diag_safe_fix (d : diag) : bool := match fix_kind d with Some FixSafe => true | _ => false end.
Definition diag_unsafe_fix (d : diag) : bool := match fix_kind d with Some FixUnsafe => true | _ => false end.

(** Result of one file, as returned by jarl_core::check::check. *)
Definition fresult := (dpath * (list diag + err))%type.
Definition with_file (p : dpath) (ds : list diag) : list fdiag := map (mk_fd p) ds.
(** check.rs:117-133: the files with diagnostics. *)
Definition diag_files (rs : list fresult) : list (dpath * list fdiag) :=
  flat_map (fun '(p, r) => match r with inl ((_ :: _) as ds) => [(p, with_file p ds)] | _ => [] end) rs.
Definition err_files (rs : list fresult) : list (dpath * err) :=
  flat_map (fun '(p, r) => match r with inr e => [(p, e)] | inl _ => [] end) rs.

(** check.rs:435-478 [hide_unused_function_if_needed]. *)
Definition is_unused_fn (d : fdiag) : bool := teqb (d_rule (fd_diag d)) (lit "unused_function").
Definition min_list (l : list nat) : option nat :=
  match l with [] => None | x :: r => Some (fold_left Nat.min r x) end.
Definition or_nil (o : option (list text)) : list text := match o with Some l => l | None => [] end.
Definition explicitly_selected (select extend : text) (items : list item) : bool :=
  existsb (fun s => teqb (trim s) (lit "unused_function")) (split_on 44%N select ++ split_on 44%N extend)
  || existsb (fun i => existsb (fun s => teqb s (lit "unused_function"))
                         (or_nil (cs_select (snd i)) ++ or_nil (cs_extend (snd i)))) items.
Definition hide_unused (select extend : text) (items : list item) (fs : list (dpath * list fdiag))
    : bool * nat * list (dpath * list fdiag) :=
  let threshold := match min_list (map (fun i => cs_threshold (snd i)) items) with Some n => n | None => 50 end in
  let count := length (filter is_unused_fn (flat_map snd fs)) in
  let hidden := negb (explicitly_selected select extend items) && (threshold <? count) in
  (hidden, count,
   if hidden then
     filter (fun f => match snd f with [] => false | _ => true end)
       (map (fun f => (fst f, filter (fun d => negb (is_unused_fn d)) (snd f))) fs)
   else fs).

(** status.rs and main.rs: the process exit code. *)
Inductive status := Success | Failure | Error.
Definition exit_code (s : status) : nat := match s with Success => 0 | Failure => 1 | Error => 255 end.

(** statistics.rs:7-52: one entry per rule with its count and whether it is starred. *)
Fixpoint bump (name : text) (safe : bool) (m : list (text * (nat * bool))) : list (text * (nat * bool)) :=
  match m with
  | [] => [(name, (1, safe))]
  | (k, (n, b)) :: r => if teqb k name then (k, (n + 1, b || safe)) :: r else (k, (n, b)) :: bump name safe r
  end.
Definition stat_map (ds : list fdiag) : list (text * (nat * bool)) :=
  fold_left (fun m d => bump (d_rule (fd_diag d)) (diag_safe_fix (fd_diag d)) m) ds [].
(** statistics.rs:29-31: sorted by count then reversed.  [iter] is the hash map's iteration order. *)
Definition stat_lines (iter : list (text * (nat * bool))) : list (text * (nat * bool)) :=
  rev (sort_by (fun a b => fst (snd a) <=? fst (snd b)) iter).

(** output_format.rs:33-80 [print_summary]: (total, fixable, fixable with unsafe fixes). *)
Definition summary (ds : list fdiag) : nat * nat * nat :=
  (length ds, length (filter (fun d => diag_safe_fix (fd_diag d)) ds),
   length (filter (fun d => diag_unsafe_fix (fd_diag d)) ds)).

(** output_format.rs:122-356: the emitters.  What is shown: diagnostics, then file errors.
    [readable p]: the Full format reads the source of each file again and skips the diagnostics of
    files it cannot read. *)
Inductive format := Full | Concise | Github | Json.
Definition emit (readable : dpath -> bool) (f : format) (ds : list fdiag) (es : list (dpath * err))
    : list fdiag * list (dpath * err) :=
  match f with
  | Full => (filter (fun d => readable (fd_file d)) ds, es)
  | Concise => (ds, es)
  | Github => (ds, [])
  | Json => (ds, es)
  end.

(** args.rs: the options used here. *)
Record cargs := mk_cargs {
  ca_select : text; ca_extend : text; ca_statistics : bool; ca_add_ignore : option text; ca_format : format }.

(** What a run shows and returns. *)
Record outp := mk_out {
  o_status : status; o_diags : list fdiag; o_errs : list (dpath * err);
  o_stats : option (list (text * (nat * bool))); o_summary : option (nat * nat * nat);
  o_hidden : option nat }.
Definition quiet (s : status) : outp := mk_out s [] [] None None None.

Section Check.
Variable matched : dpath -> list text -> dpath -> omatch.
(** [build_config] (config.rs:85-159) and jarl_core::check::check on one group ([RErr]: [build_config]
    failed). *)
Variable run_group : option csettings -> list dpath -> res (list fresult).
(** The iteration orders of the hash maps of check.rs:98 and statistics.rs:17. *)
Variable order : list (option dpath * list dpath) -> list (option dpath * list dpath).
Variable stat_order : list (text * (nat * bool)) -> list (text * (nat * bool)).
Variable readable : dpath -> bool.

Fixpoint run_all (items : list item) (gs : list (option dpath * list dpath)) : res (list fresult) :=
  match gs with
  | [] => ROk []
  | (k, ps) :: r =>
      rbind (run_group (group_settings items k) ps) (fun rs =>
      rbind (run_all items r) (fun rs' => ROk (rs ++ rs')))
  end.

(** check.rs:135-267: what follows the collection of the results. *)
Definition report (a : cargs) (items : list item) (rs : list fresult) : outp :=
  let '(hidden, count, files) := hide_unused (ca_select a) (ca_extend a) items (diag_files rs) in
  let flat := sort_by fd_leb (flat_map snd files) in
  let errs := err_files rs in
  if ca_statistics a then
    match flat with
    | [] => quiet Success
    | _ => mk_out Failure [] [] (Some (stat_lines (stat_order (stat_map flat)))) None None
    end
  else
    let '(ds, es) := emit readable (ca_format a) flat errs in
    let human := match ca_format a with Full | Concise => true | _ => false end in
    mk_out (match errs, files with _ :: _, _ => Error | [], [] => Success | [], _ => Failure end)
      ds es None (if human then Some (summary flat) else None)
      (if human && hidden then Some count else None).

(** check.rs:30-268 [check], from the discovered settings ([RErr] when a configuration file is
    invalid) and the entries of the walk.  [--add-jarl-ignore] (270-420) always ends with
    success, or with an error when the reason contains a line break; the edits are in
    [Model.SuppressEdit].  [RErr] is the error path of main.rs:21-37 (exit code 255). *)
Definition has_line_break (t : text) : bool := existsb (fun c => N.eqb c 10%N || N.eqb c 13%N) t.
Definition check (a : cargs) (settings : res (list item)) (es : list entry) : res outp :=
  rbind settings (fun items =>
  match ok_paths (discover_files matched items es) with
  | [] => ROk (quiet Success)
  | paths =>
      rbind (run_all items (order (group_paths items paths))) (fun rs =>
      match ca_add_ignore a with
      | Some reason => if has_line_break reason then RErr else ROk (quiet Success)
      | None => ROk (report a items rs)
      end)
  end).
(** main.rs:13-38. *)
Definition exit_of (r : res outp) : nat := match r with ROk o => exit_code (o_status o) | _ => exit_code Error end.
End Check.
