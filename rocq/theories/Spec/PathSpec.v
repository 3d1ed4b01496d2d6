(** How an operating system finds a file by its name (POSIX, pathname resolution). *)
From Verif Require Import Model.Text.

(** A text is a path made of the parts [l] between its slashes. *)
Fixpoint slashed (l : list text) : text :=
  match l with [] => [] | [c] => c | c :: r => c ++ 47%N :: slashed r end.
Definition parts (t : text) (l : list text) : Prop := t = slashed l /\ l <> [] /\ (forall c, In c l -> ~ In 47%N c).

(** A file system: files, directories and symbolic links (with the parts of their target). *)
Inductive node := NFile (content : text) | NDir (entries : list (text * node)) | NLink (target : list text).
Fixpoint entry (c : text) (es : list (text * node)) : option node :=
  match es with
  | [] => None
  | (k, n) :: r => if list_eq_dec N.eq_dec c k then Some n else entry c r
  end.
(** What is stored at a place (links are not followed). *)
Fixpoint stored (n : node) (p : list text) : option node :=
  match p with
  | [] => Some n
  | c :: r => match n with
              | NDir es => match entry c es with Some m => stored m r | None => None end
              | _ => None
              end
  end.
Definition is_dir (root : node) (p : list text) : Prop := exists es, stored root p = Some (NDir es).
Definition is_file (root : node) (p : list text) : Prop := exists t, stored root p = Some (NFile t).

(** A part that is a name: neither empty nor [.] nor [..]. *)
Definition proper (c : text) : Prop := c <> [] /\ c <> lit "." /\ c <> lit "..".
(** A path beginning with a slash starts at the root, any other in the current directory. *)
Definition start (l : list text) (d : list text) : list text := match l with [] :: _ :: _ => [] | _ => d end.

(** From the directory [d], the parts [l] lead to the place [e]. *)
Inductive leads (root : node) : list text -> list text -> list text -> Prop :=
| leads_end d : leads root d [] d
| leads_stay d c l e : is_dir root d -> (c = [] \/ c = lit ".") -> leads root d l e -> leads root d (c :: l) e
| leads_up d l e : is_dir root d -> leads root (removelast d) l e -> leads root d (lit ".." :: l) e
| leads_name d c l e n : proper c -> stored root (d ++ [c]) = Some n -> (forall t, n <> NLink t) ->
    leads root (d ++ [c]) l e -> leads root d (c :: l) e
| leads_link d c l e t : proper c -> stored root (d ++ [c]) = Some (NLink t) ->
    leads root (start t d) (t ++ l) e -> leads root d (c :: l) e.
(** The same without going through a link. *)
Inductive leads_plainly (root : node) : list text -> list text -> list text -> Prop :=
| plainly_end d : leads_plainly root d [] d
| plainly_stay d c l e : is_dir root d -> (c = [] \/ c = lit ".") -> leads_plainly root d l e ->
    leads_plainly root d (c :: l) e
| plainly_up d l e : is_dir root d -> leads_plainly root (removelast d) l e -> leads_plainly root d (lit ".." :: l) e
| plainly_name d c l e n : proper c -> stored root (d ++ [c]) = Some n -> (forall t, n <> NLink t) ->
    leads_plainly root (d ++ [c]) l e -> leads_plainly root d (c :: l) e.

(** The name [t], used in the directory [cwd], designates the place [e]. *)
Definition designates_place (root : node) (cwd : list text) (t : text) (e : list text) : Prop :=
  exists l, parts t l /\ leads root (start l cwd) l e.
(** No [..] of the name comes after a link. *)
Definition no_up_after_link (root : node) (cwd : list text) (t : text) : Prop :=
  forall l before after, parts t l -> l = before ++ lit ".." :: after ->
    exists d, leads_plainly root (start l cwd) before d.

(** A working directory: a directory given without links, by its names. *)
Definition working_directory (root : node) (cwd : list text) : Prop :=
  is_dir root cwd /\ forall c, In c cwd -> proper c /\ ~ In 47%N c.
(** An absolute path without special parts. *)
Definition clean (p : list text) : Prop := forall c, In c p -> proper c /\ ~ In 47%N c.
