(** The command [jarl check --fix] on one R file, as a function of the text of
    the file.  For the statements of Properties/FileProperties.v. *)
From Verif Require Export Model.Config Spec.FixSpec Spec.DriverSpec Model.Pipeline.

(** [jarl check --fix --select ...], with no [jarl.toml] and outside of a package.
    [select] is what comes after [--select], empty when the flag is not given. *)
Definition fix_args (select : text) : args := mk_args true false false select [] [] None None.
Definition run_with (select : text) (c : config) (o : rule_options) : Prop :=
  build_config (fix_args select) None [] = ROk c /\ resolve_options None None None None None None = ROk o.

(** R can read the text. *)
Definition readable (t : text) : Prop := exists p, reads_text t p.

(** A fix that does nothing, or that writes less than it removes. *)
Definition shortening (f : rfix) : Prop :=
  is_empty_fix f = true \/ blen (f_content f) < f_end f - f_start f.

(** The pieces of a text and where they are; its comments. *)
Definition piece_at (t : text) (k : raw) (s : span) : Prop :=
  exists ps w, pieces t = Some ps /\ In (k, w, s) (place_pieces 0 ps).
Definition comment_at (t : text) (s : span) : Prop := piece_at t RComment s.
(** The token that starts at byte [x] comes right after a comment: nothing but blanks,
    line breaks and other comments in between. *)
Definition comment_before (t : text) (x : nat) : Prop :=
  exists ps pre w s mid k w' y post, pieces t = Some ps /\
    place_pieces 0 ps = pre ++ (RComment, w, s) :: mid ++ (k, w', (x, y)) :: post /\
    Forall (fun p : placed => In (fst (fst p)) [RSpace; RNl; RComment]) mid.
(** The token that ends at byte [x] is followed by a comment on the same line. *)
Definition comment_after (t : text) (x : nat) : Prop :=
  exists ps pre k w' y mid w s post, pieces t = Some ps /\
    place_pieces 0 ps = pre ++ (k, w', (y, x)) :: mid ++ (RComment, w, s) :: post /\
    Forall (fun p : placed => fst (fst p) = RSpace) mid.

(** The expression [e] of the file [t], at the place [fs] of its statement number
    [j], is written from byte [x] to byte [y]: these are the first and the last byte of its tokens. *)
Definition written (t : text) (j : nat) (fs : list frame) (e : expr) (x y : nat) : Prop :=
  exists p before first more last after,
    tokens t = Some (before ++ (first :: more) ++ after) /\
    reads (map fst (before ++ (first :: more) ++ after)) p /\
    nth_error p j = Some (plug fs e) /\
    map fst before = sep_before [TNl] (map toks (firstn j p)) ++ pre_toks fs /\
    map fst (first :: more) = toks e /\
    fst (snd first) = x /\ (exists l, first :: more = l ++ [last]) /\ snd (snd last) = y.

(** A file system with one file. *)
Definition only_file (p : path) (t : text) : fsys := fun q => if teqb q p then Some t else None.
(** [jarl check --fix] with the default rules turns the file [t] into [t'] and
    reports the result (or the error) [res]. *)
Definition fixed_into (select : text) (t t' : text) (res : outcome) : Prop :=
  forall c o unreach p, run_with select c o -> has_rmd_extension p = false ->
  exists n fs', jarl_check c o unreach n p (only_file p t) = (fs', Some res) /\ fs' p = Some t'.
(** Lines of text. *)
Definition of_lines (l : list text) : text := concat (map (fun x => x ++ [10%N]) l).
