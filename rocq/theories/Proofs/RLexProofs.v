(** Facts about the lexer of Spec/RLex.v. *)
From Verif Require Import Spec.RLex Proofs.TextProofs.

Lemma lex_run_app : forall a st b,
  lex_run st (a ++ b) =
  let '(x, st1) := lex_run st a in let '(y, st2) := lex_run st1 b in (x ++ y, st2).
Proof.
  induction a as [|c a IH]; intros st b; cbn [app lex_run].
  - destruct (lex_run st b). reflexivity.
  - destruct (lex_step st c) as [o st1]. rewrite IH.
    destruct (lex_run st1 a) as [x st2]. destruct (lex_run st2 b) as [y st3]. rewrite app_assoc. reflexivity.
Qed.
Lemma place_app : forall a pos b,
  place_pieces pos (a ++ b) = place_pieces pos a ++ place_pieces (pos + blen (concat (map snd a))) b.
Proof.
  induction a as [|[r w] a IH]; intros pos b; cbn [app place_pieces map concat snd blen].
  - rewrite Nat.add_0_r. reflexivity.
  - rewrite IH, blen_app, Nat.add_assoc. reflexivity.
Qed.

(** What follows a word does not make it the package of [pkg::name]. *)
Definition no_ns (r : list placed) : Prop :=
  match r with
  | (ROp, o, _) :: (RWord, _, _) :: _ => teqb o (lit "::") = false /\ teqb o (lit ":::") = false
  | _ => True
  end.
Lemma arrange_word : forall cx op hd w s r, no_ns r ->
  arrange cx op hd ((RWord, w, s) :: r) =
  match word_tok w with
  | TIf | TFor | TWhile | TFun => cons_tok (word_tok w) s (arrange cx false true r)
  | TAtom _ => cons_tok (word_tok w) s (arrange cx true false r)
  | _ => cons_tok (word_tok w) s (arrange cx false false r)
  end.
Proof.
  intros cx op hd w s r H. cbn [arrange].
  destruct r as [|[[[] o] s1] [|[[[] n] s2] r]]; try reflexivity.
  unfold no_ns in H. destruct H as [-> ->]. rewrite !andb_false_r. reflexivity.
Qed.

(** What an operator or bracket other than []]], [$] and [@] does. *)
Definition op_step (cx : list opened) (header : bool) (w : text) : option (tok * list opened * bool) :=
  if teqb w (lit "(") then Some (TLp, OParen header :: cx, false)
  else if teqb w (lit ")") then
    match cx with OParen h :: cx' => Some (TRp, cx', negb h) | _ => None end
  else if teqb w (lit "[") then Some (TLb false, OBracket false :: cx, false)
  else if teqb w (lit "[[") then Some (TLb true, OBracket true :: cx, false)
  else if teqb w (lit "]") then
    match cx with OBracket false :: cx' => Some (TRb false, cx', true) | _ => None end
  else if teqb w (lit "{") then Some (TLc, OBrace :: cx, false)
  else if teqb w (lit "}") then match cx with OBrace :: cx' => Some (TRc, cx', true) | _ => None end
  else if teqb w (lit ",") then Some (TComma, cx, false)
  else if teqb w (lit "!") then Some (TBang, cx, false)
  else if teqb w (lit "$") || teqb w (lit "@") then None
  else match binary w with Some o => Some (TOp o, cx, false) | None => None end.
Lemma arrange_op : forall cx op hd w s r k cx' op', op_step cx hd w = Some (k, cx', op') ->
  arrange cx op hd ((ROp, w, s) :: r) = cons_tok k s (arrange cx' op' false r).
Proof.
  intros cx op hd w s r k cx' op' E. unfold op_step in E. cbn [arrange].
  repeat match type of E with
  | (if ?b then _ else _) = _ => destruct b
  end;
  repeat match type of E with
  | match ?x with _ => _ end = _ => destruct x; try discriminate
  end; try discriminate; injection E as <- <- <-; reflexivity.
Qed.
Lemma arrange_str : forall cx op hd w s r,
  arrange cx op hd ((RStr, w, s) :: r) = cons_tok (TAtom (AStr w)) s (arrange cx true false r).
Proof. reflexivity. Qed.
