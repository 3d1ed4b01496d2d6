(** A fixing run on the files of one group: crates/jarl-core/src/check.rs:24-113.

    The package analysis is computed once, before any file is touched (check.rs:25), and handed to every
    pass over every file (check.rs:47, 99-100).  Each file is then processed by the loop of
    Model/Driver.v.  The version-control gate (Model/Driver.v [check_start]) is assumed passed.
    Simplification: the files of a group are processed in turn; each one only reads and writes itself
    (C04, C35).  [n] bounds the reads and writes of one file ([None]: not finished yet). *)
From Verif Require Import Model.Text Model.Base Model.Rules Model.Description Model.Fix Model.Driver Model.Cli Model.Package Model.Project.
From Verif Require Model.Config.

(** The disk as seen by the loop on the file [p]. *)
Definition only_this (p : dpath) (t : option text) : fsys := fun q => if teqb q (path_text p) then t else None.
(** What a run leaves of a file (its text), and what it says about it. *)
Definition fixed : Type := option text * option outcome.

Section Fixing.
Variable is_alnum : char -> bool.
Variable regex : text -> option (text -> bool).
Variable skipped : option csettings -> text -> bool.
Variables order order' : list (dpath * list pfile) -> list (dpath * list pfile).
Variable toml : csettings -> Config.settings.
Variable lint : option csettings -> Config.config -> dpath -> text -> list dup -> list adef -> list diag + err.
Variable writable : dpath -> bool.
Variable pr : project.

(** check.rs:53-113 [check_path] *)
Definition fix_path (n : nat) (st : option csettings) (cfg : Config.config) (pkg : dmap * rmap) (p : dpath) : fixed :=
  let '(fs, o) := check_path
    (fun _ t => match lint st cfg p t (lookup p (fst pkg)) (lookup p (snd pkg)) with inl ds => Some ds | inr _ => None end)
    (fun _ => writable p) n (Config.fixing_mode cfg) (path_text p) (only_this p (text_at pr p)) in
  (fs (path_text p), o).
(** check.rs:24-51 and crates/jarl/src/commands/check.rs:107-114 *)
Definition fix_group (n : nat) (a : Config.args) (st : option csettings) (paths : list dpath) : res (list (dpath * fixed)) :=
  rbind (Config.build_config a (option_map toml st) (map (description_beside pr) paths)) (fun cfg =>
  let pkg := package_analysis is_alnum regex skipped order order' pr st cfg paths in
  ROk (map (fun p => (p, fix_path n st cfg pkg p)) paths)).
(** The project after the run. *)
Fixpoint text_after (runs : list (dpath * fixed)) (q : dpath) : option text :=
  match runs with
  | [] => text_at pr q
  | (p, (t, _)) :: r => if peqb q p then t else text_after r q
  end.
Definition after (runs : list (dpath * fixed)) : project := mk_project (disk pr) (text_after runs).
End Fixing.
