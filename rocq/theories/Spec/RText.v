(** Replacing a part of the text of a file. *)
From Verif Require Export Spec.RFix Spec.RFile.

(** R cuts the two texts apart: no word, string, operator or comment of the text [a ++ b] has a
    part in both. *)
Definition apart (a b : text) : Prop :=
  exists pa pb, pieces a = Some pa /\ pieces b = Some pb /\ pieces (a ++ b) = Some (pa ++ pb).

(** R cuts the text at byte [n]. *)
Definition cut_at (t : text) (n : nat) : Prop := exists a b, t = a ++ b /\ blen a = n /\ apart a b.

(** The line breaks of the text are inside parentheses, brackets, braces or strings of
    the text itself. *)
Fixpoint bare_break (depth : nat) (ps : list piece) : bool :=
  match ps with
  | [] => false
  | (RNl, _) :: r => (depth =? 0) || bare_break depth r
  | (ROp, w) :: r =>
      if existsb (teqb w) [lit "("; lit "["; lit "{"] then bare_break (1 + depth) r
      else if teqb w (lit "[[") then bare_break (2 + depth) r
      else if existsb (teqb w) [lit ")"; lit "]"; lit "}"] then bare_break (depth - 1) r
      else bare_break depth r
  | _ :: r => bare_break depth r
  end.
Definition breaks_enclosed (t : text) : Prop := exists ps, pieces t = Some ps /\ bare_break 0 ps = false.

(** R reads the text as these tokens. *)
Definition text_tokens (t : text) (ts : list tok) : Prop := exists pts, tokens t = Some pts /\ map fst pts = ts.

(** Statement [j] of the program, without the expression at the place [fs]. *)
Definition place_in (p : prog) (j : nat) (fs : list frame) : place := mk_place (firstn j p) fs (skipn (S j) p).
(** The new text can be read and does what the old one does. *)
Definition harmless_text (P : interp -> Prop) (old new : text) : Prop :=
  exists p q, reads_text old p /\ reads_text new q /\ same_behaviour P p q.

(** ** Usual places: the text [B] between [A] and [C] is replaced by [w] *)
(** [w] starts with the same character as [B], or both with a letter, digit or dot; or the text before ends
    with a line break, a space, [(], [{] or a comma. *)
Definition starts_well (A B w : text) : Prop :=
  exists c w1, w = c :: w1 /\ space_char c = false /\
    ((exists b B1, B = b :: B1 /\ (b = c \/ word_start b = true /\ word_start c = true)) \/
     A = [] \/
     exists PA k v, pieces A = Some (PA ++ [(k, v)]) /\
       (k = RNl \/ k = RSpace \/ k = ROp /\ In v [lit "("; lit "{"; lit ","])).
(** [w] ends with a string or a closing bracket; or with a word, before the end of the text or a character that does
    not continue the word: no letter, digit, dot or underscore, no sign after the [e] of an exponent, no quote after a single [r]. *)
Definition ends_well (w C : text) : Prop :=
  exists PW k v, pieces w = Some (PW ++ [(k, v)]) /\
    (k = RStr \/ (k = ROp /\ In v [lit ")"; lit "]"; lit "}"]) \/
     (k = RWord /\ (C = [] \/ exists c C1, C = c :: C1 /\ word_char c = false /\
        (quote c = true -> v <> lit "r" /\ v <> lit "R") /\ (In c (lit "+-") -> exponent v = false)))).
