(** Specification of fixing runs. *)
From Verif Require Import Model.Text Model.Fix Model.Driver.

(** One fixing pass over the content of a file: lint it, apply the fixes found. [sk] tells whether
    some fix was left for a later pass. *)
Definition pass (lint : path -> text -> option (list diag)) (p : path) (c : text) (sk : bool) (c' : text) : Prop :=
  exists ds, lint p c = Some ds /\ apply_fixes (map d_fix ds) c = Some (sk, c').

(** [passes lint p c c']: the content [c'] is obtained from [c] by a number of passes of which all but
    the last left some fix for later, and the last one left none. *)
Inductive passes (lint : path -> text -> option (list diag)) (p : path) : text -> text -> Prop :=
| passes_last c c' : pass lint p c false c' -> passes lint p c c'
| passes_more c c1 c' : pass lint p c true c1 -> passes lint p c1 c' -> passes lint p c c'.

(** Same content everywhere except possibly at [p]. *)
Definition same_except (p : path) (fs fs' : fsys) : Prop := forall q, q <> p -> fs' q = fs q.
Definition same_fs (fs fs' : fsys) : Prop := forall q, fs' q = fs q.

(** The documented condition for fixing: either version control is explicitly waived, or every path is
    in a repository and (dirty repositories are explicitly allowed, or all repositories concerned are
    clean). *)
Definition gate_open (repo_of : path -> option path) (dirty_files : fsys -> path -> option (list path))
    (fl : vflags) (fs : fsys) (ps : list path) : Prop :=
  allow_no_vcs fl = true \/
  ((forall p, In p ps -> exists r, repo_of p = Some r) /\
   (allow_dirty fl = true \/
    forall p r, In p ps -> repo_of p = Some r -> dirty_files fs r = Some [])).

(** The file named by the path has the extension [e]: some directory part (empty, or ending with a
    slash), a non-empty name, a dot, and [e]. *)
Definition named_with (e : text) (p : path) : Prop :=
  exists dir stem, p = dir ++ stem ++ lit "." ++ e /\ (dir = [] \/ exists d, dir = d ++ lit "/") /\
    stem <> [] /\ ~ In 47%N stem.
(** An R Markdown or Quarto document; an R script. *)
Definition document_path (p : path) : Prop :=
  named_with (lit "Rmd") p \/ named_with (lit "rmd") p \/ named_with (lit "qmd") p \/ named_with (lit "Qmd") p.
Definition script_path (p : path) : Prop := named_with (lit "R") p \/ named_with (lit "r") p.
