(** Positions, text edits and document synchronisation as in the Language Server Protocol
    (lines end with [\n]; the other line endings of the protocol are discussed in DESIGN.md). *)
From Verif Require Import Model.Text Model.Lsp Spec.SuppressEditSpec.

(** Length of a text in the units of an encoding. *)
Definition utf16_units (c : char) : nat := if (c <? 65536)%N then 1 else 2.
Fixpoint units (enc : encoding) (t : text) : nat :=
  match t with
  | [] => 0
  | c :: r => (match enc with UTF8 => u8len c | UTF16 => utf16_units c | UTF32 => 1 end) + units enc r
  end.
Fixpoint newlines (t : text) : nat :=
  match t with [] => 0 | c :: r => (if N.eqb c nl then 1 else 0) + newlines r end.

(** In the text [t], the position [p] is the place after the prefix [pre]: the line number counts
    the newlines before, the character is the length of the line up to there. *)
Definition after_prefix (enc : encoding) (t pre : text) (p : pos) : Prop :=
  exists a l rest, t = pre ++ rest /\ pre = a ++ l /\ (a = [] \/ exists a', a = a' ++ [nl]) /\ ~ In nl l /\
    p = (newlines pre, units enc l).
(** A position beyond the end of its line stands for the end of the line. *)
Definition denotes (enc : encoding) (t pre : text) (p : pos) : Prop :=
  after_prefix enc t pre p \/
  exists q, after_prefix enc t pre (fst p, q) /\ q < snd p /\ (t = pre \/ exists r, t = pre ++ nl :: r).

(** A text edit, and one change of a didChange notification, applied by the client. *)
Definition edit_result (enc : encoding) (t : text) (s e : pos) (new t' : text) : Prop :=
  exists a m b, t = a ++ m ++ b /\ denotes enc t a s /\ denotes enc t (a ++ m) e /\ t' = a ++ new ++ b.
Definition change_result (enc : encoding) (t : text) (c : change) (t' : text) : Prop :=
  match cg_range c with
  | None => t' = cg_text c
  | Some (s, e) => edit_result enc t s e (cg_text c) t'
  end.
(** Changes one after the other. *)
Inductive changes_result (enc : encoding) : text -> list change -> text -> Prop :=
| cr_nil t : changes_result enc t [] t
| cr_cons t c t' cs t'' : change_result enc t c t' -> changes_result enc t' cs t'' -> changes_result enc t (c :: cs) t''.

(** Changes of disjoint ranges of one text: segments (kept, removed, inserted) from left to right,
    then a kept tail; [ranged] gives the changes their positions in the text as it was. *)
Definition segment := (text * text * text)%type.
Fixpoint text_before (l : list segment) (tail : text) : text :=
  match l with [] => tail | (g, m, n) :: r => g ++ m ++ text_before r tail end.
Fixpoint text_after (l : list segment) (tail : text) : text :=
  match l with [] => tail | (g, m, n) :: r => g ++ n ++ text_after r tail end.
Inductive ranged (enc : encoding) (t : text) : text -> list segment -> list change -> Prop :=
| rg_nil pre : ranged enc t pre [] []
| rg_cons pre g m n r s e cs : after_prefix enc t (pre ++ g) s -> after_prefix enc t (pre ++ g ++ m) e ->
    ranged enc t (pre ++ g ++ m) r cs -> ranged enc t pre ((g, m, n) :: r) (Change (Some (s, e)) n :: cs).

(** The notifications about a document. *)
Definition concerns (u : uri) (e : event) : Prop :=
  match e with DidOpen x _ _ | DidChange x _ _ | DidClose x | DidSave x => x = u end.
(** Well-behaved notifications: one ranged change, or several changes of disjoint ranges sent from
    the end of the text to its beginning; with UTF-8 the positions must be exact. *)
Definition exact_range (enc : encoding) (t : text) (c : change) : Prop :=
  match cg_range c with
  | None => False
  | Some (s, e) => enc <> UTF8 \/ (exists a, after_prefix enc t a s) /\ (exists b, after_prefix enc t b e)
  end.
Definition orderly (enc : encoding) (t : text) (cs : list change) : Prop :=
  (exists c, cs = [c] /\ exact_range enc t c) \/
  exists l tail cs', t = text_before l tail /\ ranged enc t [] l cs' /\ cs = rev cs'.
(** The text of the document [u] in the editor after a history of such notifications, from [t]. *)
Inductive orderly_history (enc : encoding) (u : uri) : text -> list event -> text -> Prop :=
| oh_nil t : orderly_history enc u t [] t
| oh_other t e es t' : ~ concerns u e -> orderly_history enc u t es t' -> orderly_history enc u t (e :: es) t'
| oh_save t es t' : orderly_history enc u t es t' -> orderly_history enc u t (DidSave u :: es) t'
| oh_change t cs v t1 es t' : orderly enc t cs -> changes_result enc t cs t1 -> orderly_history enc u t1 es t' ->
    orderly_history enc u t (DidChange u cs v :: es) t'
| oh_open t t1 v es t' : orderly_history enc u t1 es t' -> orderly_history enc u t (DidOpen u t1 v :: es) t'.

(** A file name pattern: [*] stands for any text. *)
Inductive glob : text -> text -> Prop :=
| gl_nil : glob [] []
| gl_star p x t : glob p t -> glob (42%N :: p) (x ++ t)
| gl_char c p t : c <> 42%N -> glob p t -> glob (c :: p) (c :: t).
(** [c] is one of the components of a path. *)
Definition component (path c : text) : Prop :=
  ~ In 47%N c /\ exists a b, path = a ++ c ++ b /\ (a = [] \/ exists a', a = a' ++ [47%N]) /\ (b = [] \/ exists b', b = 47%N :: b').
(** The file name: the last component. *)
Definition base_name (path f : text) : Prop :=
  ~ In 47%N f /\ exists a, path = a ++ f /\ (a = [] \/ exists a', a = a' ++ [47%N]).
(** A path with forward slashes for the backslashes that Windows uses. *)
Definition with_slashes (path path' : text) : Prop :=
  Forall2 (fun a b => (a = 92%N /\ b = 47%N) \/ (a <> 92%N /\ b = a)) path path'.
(** [q] is a position of the range [r] (its end included), and two ranges share a position. *)
Definition position_in (q : pos) (r : pos * pos) : Prop :=
  let le (a b : pos) := fst a < fst b \/ (fst a = fst b /\ snd a <= snd b) in le (fst r) q /\ le q (snd r).
Definition touch (r r' : pos * pos) : Prop := exists q, position_in q r /\ position_in q r'.
(** Openings and closings of a document. *)
Definition opens (u : uri) (e : event) : Prop := match e with DidOpen x _ _ => x = u | _ => False end.
Definition closes (u : uri) (e : event) : Prop := match e with DidClose x => x = u | _ => False end.
(** Byte columns and columns of the encoding agree at an offset. *)
Definition plain_before (enc : encoding) (src : text) (off : nat) : Prop :=
  enc = UTF8 \/ exists l, on_line src off l /\ ascii_text l = true.
