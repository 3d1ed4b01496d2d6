(** The names of files: [normalize_path] and [relativize_path] of crates/jarl-core/src/fs.rs:32-56.

    [cwd] is [path_dedot::CWD], the working directory of the process: an absolute path without links
    (what [getcwd] returns), given by its components.  [Path::components] and the crate
    [path-absolutize] (not part of this repository) are modelled from their documentation, for Unix.
    Simplification: file names are Unicode ([Path::display] replaces what is not). *)
From Verif Require Import Model.Text Model.Base Model.Cli.

(** [Path::components] without its root: the parts between slashes, except the empty ones and [.]; [..] is
    kept.  (A leading [.] is kept by the code and then ignored by [absolutize].) *)
Definition components (t : text) : list text :=
  filter (fun c => negb (teqb c [] || teqb c (lit "."))) (split_on 47%N t).
(** [Path::has_root]. *)
Definition rooted (t : text) : bool := match t with c :: _ => N.eqb c 47%N | [] => false end.

(** fs.rs:34-41 [normalize_path], i.e. [Absolutize::absolutize]: [..] removes the component before it
    (nothing at the root), and a path without root starts from the working directory. *)
Definition absolute_step (p : dpath) (c : text) : dpath := if teqb c (lit "..") then removelast p else p ++ [c].
Definition normalize_path (cwd : dpath) (t : text) : dpath :=
  fold_left absolute_step (components t) (if rooted t then [] else cwd).

(** The text of a path: [PathBuf::from] of absolute components, and of relative ones. *)
Fixpoint slash_join (l : list text) : text :=
  match l with [] => [] | [c] => c | c :: r => c ++ 47%N :: slash_join r end.
Definition absolute_text (p : dpath) : text := 47%N :: slash_join p.

(** fs.rs:44-56 [relativize_path]: [strip_prefix] compares components. *)
Definition relativize_path (cwd : dpath) (t : text) : text :=
  if rooted t then match relative cwd (components t) with Some r => slash_join r | None => t end else t.
