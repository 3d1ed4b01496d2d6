(** The per-file driver and the version-control gate:
    crates/jarl-core/src/check.rs:24-111, crates/jarl-core/src/vcs.rs:20-106,
    crates/jarl-core/src/fs.rs:13-30, and the group loop of
    crates/jarl/src/commands/check.rs:88-128.

    The linter proper ([get_checks]) is an arbitrary function, given as an argument: every
    theorem holds for all linters.  The file system is a map from paths to texts; a read of an
    absent path fails, a write fails on paths that are not writable.
    Simplifications: [relativize_path] (check.rs:45, 70, 92) names the same file as the original path
    and is the identity here; a write is atomic. *)
From Verif Require Import Model.Text Model.Fix.

Definition path := text.
Definition fsys := path -> option text.
Definition upd (fs : fsys) (p : path) (c : text) : fsys :=
  fun q => if teqb q p then Some c else fs q.

(** crates/jarl-core/src/diagnostic.rs:56-66 [struct Diagnostic]; the body/suggestion of the
    message and the computed location are not represented. *)
Record diag := mk_diag { d_rule : text; d_start : nat; d_end : nat; d_fix : rfix }.

Inductive err := ERead | ELint | EWrite | ENoVcs | EDirty | EGit.

(** Result of processing one file: [anyhow::Result<Vec<Diagnostic>>], or a panic. *)
Inductive outcome := Ok (ds : list diag) | Err (e : err) | Panic.

(** fs.rs:24-34. [Path::extension]: the part of the file name after its last dot, when the name has a
    dot that is not its first character.  Paths use '/' (47). *)
Fixpoint after_last (x : char) (t acc : text) : text :=
  match t with
  | [] => rev acc
  | c :: r => if N.eqb c x then after_last x r [] else after_last x r (c :: acc)
  end.
Definition file_name (p : path) : text := after_last 47%N p [].
Definition extension (p : path) : option text :=
  match file_name p with
  | [] => None
  | c :: r => if existsb (N.eqb 46%N) r then Some (after_last 46%N r []) else None
  end.
Definition is_rmd_extension (e : text) : bool :=
  teqb e (lit "rmd") || teqb e (lit "Rmd") || teqb e (lit "qmd") || teqb e (lit "Qmd").
Definition has_rmd_extension (p : path) : bool :=
  match extension p with Some e => is_rmd_extension e | None => false end.
Definition has_r_extension (p : path) : bool :=
  match extension p with Some e => teqb e (lit "r") || teqb e (lit "R") | None => false end.

Section Driver.
(** [get_checks] for a fixed configuration and package analysis ([None] = error, e.g. parse error). *)
Variable lint : path -> text -> option (list diag).
Variable writable : path -> bool.

(** check.rs:65-78 [lint_only]. *)
Definition lint_only (fs : fsys) (p : path) : outcome :=
  match fs p with
  | None => Err ERead
  | Some c => match lint p c with None => Err ELint | Some ds => Ok ds end
  end.

(** State of the loop of [lint_fix] (check.rs:94-113): about to read with the current value of
    [has_skipped_fixes], about to write, or finished. *)
Inductive jstate := JRead (skipped : bool) | JWrite (skipped : bool) (out : text) | JDone (o : outcome).

(** One atomic action (a read followed by the computation, or a write). *)
Definition jstep (p : path) (fs : fsys) (j : jstate) : fsys * jstate :=
  match j with
  | JRead sk =>
      match fs p with
      | None => (fs, JDone (Err ERead))
      | Some c =>
          match lint p c with
          | None => (fs, JDone (Err ELint))
          | Some ds =>
              if sk then
                match apply_fixes (map d_fix ds) c with
                | None => (fs, JDone Panic)
                | Some (sk', out) => (fs, JWrite sk' out)
                end
              else (fs, JDone (Ok ds))
          end
      end
  | JWrite sk out =>
      if writable p then (upd fs p out, JRead sk) else (fs, JDone (Err EWrite))
  | JDone o => (fs, JDone o)
  end.

Fixpoint jrun (n : nat) (p : path) (fs : fsys) (j : jstate) : fsys * jstate :=
  match n with
  | O => (fs, j)
  | S n' => let '(fs', j') := jstep p fs j in jrun n' p fs' j'
  end.

(** check.rs:80-113 [lint_fix] and check.rs:53-63 [check_path]: initial state of the job. *)
Definition check_path_start (fixing : bool) (p : path) (fs : fsys) : jstate :=
  if fixing then
    if has_rmd_extension p then JDone (lint_only fs p) else JRead true
  else JDone (lint_only fs p).

(** [check_path] run alone for at most [n] actions; [None] = not finished yet. *)
Definition check_path (n : nat) (fixing : bool) (p : path) (fs : fsys) : fsys * option outcome :=
  match jrun n p fs (check_path_start fixing p fs) with
  | (fs', JDone o) => (fs', Some o)
  | (fs', _) => (fs', None)
  end.

(** check.rs:42-50: the files are processed by a parallel map.  A schedule is the list of job
    indices that perform the next atomic action; jobs start lazily (state [None]). *)
Definition jobs := list (path * option jstate).
Fixpoint sys_step (fixing : bool) (i : nat) (fs : fsys) (js : jobs) : fsys * jobs :=
  match js with
  | [] => (fs, [])
  | (p, j) :: r =>
      match i with
      | O =>
          match j with
          | None => (fs, (p, Some (check_path_start fixing p fs)) :: r)
          | Some j => let '(fs', j') := jstep p fs j in (fs', (p, Some j') :: r)
          end
      | S i' => let '(fs', r') := sys_step fixing i' fs r in (fs', (p, j) :: r')
      end
  end.
Fixpoint sys_run (fixing : bool) (sched : list nat) (fs : fsys) (js : jobs) : fsys * jobs :=
  match sched with
  | [] => (fs, js)
  | i :: s => let '(fs', js') := sys_step fixing i fs js in sys_run fixing s fs' js'
  end.
End Driver.

(** ** Version control gate — vcs.rs:20-106. *)
Section Vcs.
(** [git2::Repository::discover(path)] (vcs.rs:29): the repository root of a path, if any. *)
Variable repo_of : path -> option path.
(** [repo.statuses(..)] (vcs.rs:71-82): the files of the repository that are not CURRENT
    ([None] = git error).  Ignored files are excluded, untracked ones included. *)
Variable dirty_files : fsys -> path -> option (list path).

Record vflags := mk_vflags { allow_dirty : bool; allow_no_vcs : bool }.

(** Dirty files of all repositories of [repos] (vcs.rs:62-85); [None] = git error. *)
Fixpoint all_dirty (fs : fsys) (repos : list path) : option (list path) :=
  match repos with
  | [] => Some []
  | r :: rs =>
      match dirty_files fs r with
      | None => None
      | Some d => match all_dirty fs rs with None => None | Some d' => Some (d ++ d') end
      end
  end.

(** vcs.rs:20-106; [None] = gate passed.  The grouping map's keys are represented by the list of
    repository roots (duplicates are harmless: the result only tests emptiness). *)
Definition check_version_control (fl : vflags) (fs : fsys) (ps : list path) : option err :=
  if allow_no_vcs fl then None
  else if existsb (fun p => match repo_of p with None => true | Some _ => false end) ps then Some ENoVcs
  else if allow_dirty fl then None
  else
    let repos := flat_map (fun p => match repo_of p with Some r => [r] | None => [] end) ps in
    match all_dirty fs repos with
    | None => Some EGit
    | Some [] => None
    | Some (_ :: _) => Some EDirty
    end.

(** check.rs:24-51 [check]: the gate, then one job per path.  [Inl e]: a single error, nothing is
    processed; [Inr jobs]: the jobs to run. *)
Definition check_start (fl : vflags) (fixing : bool) (fs : fsys) (ps : list path) : err + jobs :=
  if fixing && negb (match ps with [] => true | _ => false end) then
    match check_version_control fl fs ps with
    | Some e => inl e
    | None => inr (map (fun p => (p, None)) ps)
    end
  else inr (map (fun p => (p, None)) ps).
End Vcs.

(** ** The group loop — crates/jarl/src/commands/check.rs:104-128: files are grouped by the
    configuration that governs them and [check] is called once per group, in turn.
    Simplification: all groups share the command-line flags and the linter (in the code each group
    builds its own configuration); each job of a group is run to completion in order with [n]
    actions of fuel (any other schedule gives the same result, see C35). *)
Fixpoint run_jobs (lint : path -> text -> option (list diag)) (writable : path -> bool)
    (n : nat) (fixing : bool) (fs : fsys) (ps : list path) : fsys * list (path * option outcome) :=
  match ps with
  | [] => (fs, [])
  | p :: r =>
      let '(fs1, o) := check_path lint writable n fixing p fs in
      let '(fs2, os) := run_jobs lint writable n fixing fs1 r in
      (fs2, (p, o) :: os)
  end.
Fixpoint run_groups (lint : path -> text -> option (list diag)) (writable : path -> bool)
    (repo_of : path -> option path) (dirty_files : fsys -> path -> option (list path))
    (fl : vflags) (n : nat) (fixing : bool) (fs : fsys) (groups : list (list path))
    : fsys * list (path * option outcome) :=
  match groups with
  | [] => (fs, [])
  | g :: gs =>
      let '(fs1, os) :=
        match check_start repo_of dirty_files fl fixing fs g with
        | inl e => (fs, match g with [] => [] | p :: _ => [(p, Some (Err e))] end)
        | inr _ => run_jobs lint writable n fixing fs g
        end in
      let '(fs2, os2) := run_groups lint writable repo_of dirty_files fl n fixing fs1 gs in
      (fs2, os ++ os2)
  end.
