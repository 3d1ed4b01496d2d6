(** Code chunks of R Markdown documents. *)
From Verif Require Import Model.Text Model.Base Model.Rules Model.Directive Model.Fix Model.Driver Model.Suppress
  Model.Document Model.Rmd Spec.SuppressSpec.

(** An opening line with the given backquotes: three or more backquotes after blanks, then [{r...}] *)
Definition opening_line (fence l : text) : Prop :=
  exists n sp x opts rest, 3 <= n /\ fence = repeat 96%N n /\ Forall (fun c => c = 32%N \/ c = 9%N) sp /\
    (x = 114%N \/ x = 82%N) /\
    l = sp ++ fence ++ lit "{" ++ [x] ++ opts ++ lit "}" ++ rest.
(** A line that consists of the fence, up to blanks. *)
Definition closing_line (fence l : text) : Prop :=
  exists a b, forallb is_ws a = true /\ forallb is_ws b = true /\ l = a ++ fence ++ b.

(** Reading a document line by line, from byte offset [off]. *)
Inductive reads : nat -> list text -> list raw -> Prop :=
| reads_end off : reads off [] []
| reads_text off l ls cs : (forall f, ~ opening_line f l) -> reads (off + blen l) ls cs -> reads off (l :: ls) cs
| reads_chunk off f o code c ls cs : opening_line f o -> Forall (fun l => ~ closing_line f l) code ->
    closing_line f c -> reads (off + blen o + blen (concat code) + blen c) ls cs ->
    reads off (o :: code ++ c :: ls) (Raw (off + blen o) (concat code) :: cs)
| reads_unclosed off f o code : opening_line f o -> Forall (fun l => ~ closing_line f l) code ->
    reads off (o :: code) [].

(** The engine named on an opening line: what follows the brace, up to a blank, comma or brace. *)
Fixpoint engine_name (t : text) : text :=
  match t with
  | [] => []
  | c :: r => if is_ws c || N.eqb c 44 || N.eqb c 125 then [] else c :: engine_name r
  end.
Definition engine (l e : text) : Prop := exists a b, l = a ++ lit "{" ++ b /\ ~ In 123%N a /\ engine_name b = e.

(** The trees given by the parser have the comments of the chunk. *)
Definition parse_ok (parse : text -> option (node * list diag * list diag)) : Prop :=
  forall code tree exprs unreachable, parse code = Some (tree, exprs, unreachable) -> in_source code tree.
(** The first chunk has, before its code, a file-level comment for [r], at [c] in the file. *)
Definition file_comment (parse : text -> option (node * list diag * list diag)) (content : text)
  (r : rule) (c : range) : Prop :=
  exists c0 cs tree exprs unreachable v, extract_r_chunks content = c0 :: cs /\
    parse (r_code c0) = Some (tree, exprs, unreachable) /\
    In v (visits (r_code c0) tree true 0) /\ v_role v = Plain true /\ says v KFile r /\
    c = (fst (v_range v) + r_start c0, snd (v_range v) + r_start c0).
(** [d] is a diagnostic of chunk number [i], at its place in the file and without fix.  Chunks
    after the first have no file-level suppressions. *)
Definition chunk_reports (enabled : rule -> bool) (parse : text -> option (node * list diag * list diag)) (content : text)
  (i : nat) (d : diag) : Prop :=
  exists c tree exprs unreachable m d0, nth_error (extract_r_chunks content) i = Some c /\
    parse (r_code c) = Some (tree, exprs, unreachable) /\ from_node tree (r_code c) = Some m /\
    In d0 (check_document enabled (move_files i m) exprs unreachable [] []) /\
    d = mk_diag (d_rule d0) (d_start d0 + r_start c) (d_end d0 + r_start c) empty_fix.
