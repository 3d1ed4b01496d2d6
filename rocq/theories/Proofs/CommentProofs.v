(** Comments inside the code that a fix would rewrite. *)
From Coq Require Import Sorting.Sorted.
From Verif Require Import Spec.RFile Proofs.TextProofs Proofs.RParse Proofs.RFuel.

Definition solid (k : raw) : bool := match k with RWord | RStr | ROp => true | _ => false end.
Definition kind (p : placed) : raw := fst (fst p).

(** ** The lexer: no empty piece, and a comment goes on to the end of its line *)
Fixpoint ended (ps : list piece) : bool :=
  match ps with
  | [] => true
  | (RComment, _) :: r => match r with (RNl, _) :: _ => ended r | _ => false end
  | _ :: r => ended r
  end.
Definition not_empty (p : piece) : bool := match snd p with [] => false | _ => true end.
Definition holds (st : lstate) : bool :=
  match st with
  | LIdle | LBad => true
  | LSpace w | LWord w | LStr w _ _ | LTick w | LPercent w | LOp w | LComment w => match w with [] => false | _ => true end
  end.
Lemma ended_app : forall a b, ended a = true -> ended b = true -> ended (a ++ b) = true.
Proof.
  induction a as [|[k w] a IH]; intros b A B; [exact B|]. cbn [app ended] in *.
  destruct k; try (apply IH; assumption). destruct a as [|[k2 w2] a]; [discriminate|].
  destruct k2; try discriminate. exact (IH b A B).
Qed.
Lemma start_fine : forall c, let '(out, st) := start_piece c in
  ended out = true /\ forallb not_empty out = true /\ holds st = true.
Proof.
  intros c. unfold start_piece.
  repeat match goal with |- context [if ?b then _ else _] => destruct b; [repeat split|] end.
  repeat split.
Qed.
Lemma next_fine : forall k w c, k <> RComment -> w <> [] -> let '(out, st) := next_piece (k, w) c in
  ended out = true /\ forallb not_empty out = true /\ holds st = true.
Proof.
  intros k w c K W. unfold next_piece. pose proof (start_fine c) as H. destruct (start_piece c) as [out st].
  destruct H as (A & B & C). cbn [ended forallb not_empty snd]. destruct w; [congruence|]. destruct k; try congruence; auto.
Qed.
Lemma step_fine : forall st c, holds st = true -> let '(out, st') := lex_step st c in
  ended out = true /\ forallb not_empty out = true /\ holds st' = true.
Proof.
  assert (L : forall (w : text) c, match w ++ [c] with [] => false | _ => true end = true) by (intros [|x w] c; reflexivity).
  intros st c H. destruct st as [|w|w|w q esc|w|w|w|w|]; cbn [lex_step holds] in *;
    try (assert (W : w <> []) by (intros ->; discriminate H)).
  - apply start_fine.
  - destruct (space_char c); [repeat split; apply L|]. apply next_fine; [discriminate|exact W].
  - destruct (word_char c || _); [repeat split; apply L|]. destruct (quote c && _); [repeat split|].
    apply next_fine; [discriminate|exact W].
  - destruct esc; [repeat split; apply L|]. destruct (ceqb c q); [|repeat split; apply L].
    destruct (w ++ [c]) eqn:E; [destruct w; discriminate E|repeat split].
  - destruct (ceqb c 96%N); [|repeat split; apply L]. destruct (w ++ [c]) eqn:E; [destruct w; discriminate E|repeat split].
  - destruct (ceqb c 37%N); [destruct (w ++ [c]) eqn:E; [destruct w; discriminate E|repeat split]|].
    destruct (ceqb c 10%N); repeat split; apply L.
  - destruct (is_long (w ++ [c])); [repeat split; apply L|]. apply next_fine; [discriminate|exact W].
  - destruct (ceqb c 10%N) eqn:E; [|repeat split; apply L]. unfold next_piece, start_piece. rewrite E.
    cbn [ended forallb not_empty snd holds]. destruct w; [congruence|]. auto.
  - repeat split.
Qed.
Lemma run_fine : forall t st, holds st = true -> let '(out, st') := lex_run st t in
  ended out = true /\ forallb not_empty out = true /\ holds st' = true.
Proof.
  induction t as [|c t IH]; intros st H; cbn [lex_run]; [auto|].
  pose proof (step_fine st c H) as S. destruct (lex_step st c) as [a st1]. destruct S as (A & B & C).
  specialize (IH st1 C). destruct (lex_run st1 t) as [b st2]. destruct IH as (A2 & B2 & C2).
  split; [apply ended_app; assumption|]. split; [|exact C2]. rewrite forallb_app, B, B2. reflexivity.
Qed.
(** The last comment may end the text instead of its line. *)
Fixpoint line_end (ps : list piece) : bool :=
  match ps with
  | [] => true
  | (RComment, _) :: r => match r with [] => true | (RNl, _) :: _ => line_end r | _ => false end
  | _ :: r => line_end r
  end.
Lemma line_end_app : forall a p, ended a = true -> line_end (a ++ [p]) = true.
Proof.
  induction a as [|[k w] a IH]; intros [k' w'] H; [destruct k'; reflexivity|]. cbn [app ended line_end] in *.
  destruct k; try (apply IH; assumption). destruct a as [|[k2 w2] a]; [discriminate|]. destruct k2; try discriminate.
  exact (IH _ H).
Qed.
Lemma ended_line_end : forall a, ended a = true -> line_end a = true.
Proof.
  induction a as [|[k w] a IH]; intros H; [reflexivity|]. cbn [ended line_end] in *.
  destruct k; try (apply IH; assumption). destruct a as [|[k2 w2] a]; [reflexivity|]. destruct k2; try discriminate.
  exact (IH H).
Qed.
Lemma pieces_fine : forall t ps, pieces t = Some ps -> line_end ps = true /\ forallb not_empty ps = true.
Proof.
  intros t ps H. unfold pieces in H. pose proof (run_fine t LIdle eq_refl) as R. destruct (lex_run LIdle t) as [out st].
  destruct R as (A & B & C).
  destruct st as [|w|w|w q esc|w|w|w|w|]; cbn [lex_end option_map holds] in *; try discriminate; injection H as <-.
  1: { rewrite app_nil_r. split; [apply ended_line_end; exact A|exact B]. }
  all: split; [apply line_end_app; exact A|]; rewrite forallb_app, B; destruct w; [discriminate C|reflexivity].
Qed.

(** ** Where the pieces are *)
Fixpoint chain (pos : nat) (ps : list placed) : Prop :=
  match ps with
  | [] => True
  | (_, _, (a, b)) :: r => a = pos /\ a < b /\ chain b r
  end.
Fixpoint pended (ps : list placed) : bool :=
  match ps with
  | [] => true
  | (RComment, _, _) :: r => match r with [] => true | (RNl, _, _) :: _ => pended r | _ => false end
  | _ :: r => pended r
  end.
Lemma blen_pos : forall w, w <> [] -> 0 < blen w.
Proof. intros [|c w] H; [congruence|]. cbn [blen]. unfold u8len. repeat destruct (_ <? _)%N; lia. Qed.
Lemma place_chain : forall ps pos, forallb not_empty ps = true -> chain pos (place_pieces pos ps).
Proof.
  induction ps as [|[k w] ps IH]; intros pos H; [exact Logic.I|]. cbn [forallb not_empty snd] in H.
  apply andb_prop in H. destruct H as [H1 H2]. cbn [place_pieces chain]. split; [reflexivity|].
  split; [|apply IH; exact H2]. assert (0 < blen w) by (apply blen_pos; intros ->; discriminate). lia.
Qed.
Lemma place_ended : forall ps pos, line_end ps = true -> pended (place_pieces pos ps) = true.
Proof.
  induction ps as [|[k w] ps IH]; intros pos H; [reflexivity|]. cbn [line_end place_pieces pended] in *.
  destruct k; try (apply IH; exact H). destruct ps as [|[k2 w2] ps]; [reflexivity|].
  destruct k2; try discriminate. exact (IH _ H).
Qed.
Lemma chain_in : forall L pos k w a b, chain pos L -> In (k, w, (a, b)) L -> pos <= a /\ a < b.
Proof.
  induction L as [|[[k' w'] [a' b']] L IH]; intros pos k w a b C H; [contradiction|].
  cbn [chain] in C. destruct C as (-> & C1 & C). destruct H as [E|H]; [injection E as <- <- <- <-; lia|].
  specialize (IH _ _ _ _ _ C H). lia.
Qed.
Lemma chain_app : forall a pos b, chain pos (a ++ b) -> exists q, pos <= q /\ chain q b /\
  (forall k w x y, In (k, w, (x, y)) a -> y <= q).
Proof.
  induction a as [|[[k w] [x y]] a IH]; intros pos b C.
  - exists pos. repeat split; auto. intros; contradiction.
  - cbn [app chain] in C. destruct C as (-> & C1 & C). destruct (IH _ _ C) as (q & Q1 & Q2 & Q3).
    exists q. split; [lia|]. split; [exact Q2|]. intros k' w' x' y' [E|H]; [injection E as <- <- <- <-; exact Q1|].
    exact (Q3 _ _ _ _ H).
Qed.
(** Two different pieces do not overlap. *)
Lemma chain_disjoint : forall L pos k w a b k' w' a' b', chain pos L ->
  In (k, w, (a, b)) L -> In (k', w', (a', b')) L -> b <= a' \/ b' <= a \/ (k, w, (a, b)) = (k', w', (a', b')).
Proof.
  induction L as [|[[k0 w0] [a0 b0]] L IH]; intros pos k w a b k' w' a' b' C H H'; [contradiction|].
  cbn [chain] in C. destruct C as (-> & C1 & C).
  destruct H as [E|H]; destruct H' as [E'|H'].
  - right; right. congruence.
  - injection E as <- <- <- <-. pose proof (chain_in _ _ _ _ _ _ C H'). lia.
  - injection E' as <- <- <- <-. pose proof (chain_in _ _ _ _ _ _ C H). lia.
  - exact (IH _ _ _ _ _ _ _ _ _ C H H').
Qed.

(** ** The tokens cover the pieces *)
Inductive cover : list placed -> list ptok -> Prop :=
| cover_nil : cover [] []
| cover_drop p L pts : solid (kind p) = false -> cover L pts -> cover (p :: L) pts
| cover_nl w s L pts : cover L pts -> cover ((RNl, w, s) :: L) ((TNl, s) :: pts)
| cover_one k w s t L pts : solid k = true -> t <> TNl -> cover L pts -> cover ((k, w, s) :: L) ((t, s) :: pts)
| cover_two k1 w1 s1 sp1 k2 w2 s2 t L pts :
    solid k1 = true -> solid k2 = true -> Forall (fun p => kind p = RSpace) sp1 -> t <> TNl -> cover L pts ->
    cover ((k1, w1, s1) :: sp1 ++ (k2, w2, s2) :: L) ((t, (fst s1, snd s2)) :: pts)
| cover_three k1 w1 s1 sp1 k2 w2 s2 sp2 k3 w3 s3 t L pts :
    solid k1 = true -> solid k2 = true -> solid k3 = true ->
    Forall (fun p => kind p = RSpace) sp1 -> Forall (fun p => kind p = RSpace) sp2 -> t <> TNl -> cover L pts ->
    cover ((k1, w1, s1) :: sp1 ++ (k2, w2, s2) :: sp2 ++ (k3, w3, s3) :: L) ((t, (fst s1, snd s3)) :: pts).

(** The next visible piece. *)
Lemma next_visible : forall L k w s r, pended L = true -> filter visible L = (k, w, s) :: r -> k <> RNl ->
  exists sp L', L = sp ++ (k, w, s) :: L' /\ Forall (fun p => kind p = RSpace) sp /\
    pended L' = true /\ filter visible L' = r /\ length L' < length L /\ solid k = true.
Proof.
  induction L as [|[[k0 w0] s0] L IH]; intros k w s r P F K; [discriminate|].
  destruct k0; cbn [filter visible] in F; cbn [pended] in P.
  1,2,3: injection F as <- <- <- <-; exists [], L; cbn [app length]; repeat split; auto.
  - injection F as <- <- <- <-. congruence.
  - exfalso. destruct L as [|[[k1 w1] s1] L]; [discriminate|]. destruct k1; try discriminate.
    cbn [filter visible] in F. injection F as <- <- <- <-. congruence.
  - destruct (IH _ _ _ _ P F K) as (sp & L' & -> & A & B & C & D & E).
    exists ((RSpace, w0, s0) :: sp), L'. repeat split; auto. cbn [length] in *. lia.
Qed.
Lemma cons_tok_some : forall k s r pts, cons_tok k s r = Some pts -> exists pts', r = Some pts' /\ pts = (k, s) :: pts'.
Proof. intros k s [r|] pts H; [|discriminate]. injection H as <-. eauto. Qed.
Lemma word_tok_nl : forall w, word_tok w <> TNl.
Proof. intros w. unfold word_tok. repeat match goal with |- context [if ?b then _ else _] => destruct b; [discriminate|] end. discriminate. Qed.
Lemma pended_tail : forall p L, pended (p :: L) = true -> pended L = true.
Proof. intros [[k w] s] L H. destruct k; try exact H. cbn [pended] in H. destruct L as [|[[k1 w1] s1] L]; [reflexivity|]. destruct k1; try discriminate. exact H. Qed.

Lemma arrange_cover : forall n L cx op hd pts, length L <= n -> pended L = true ->
  arrange cx op hd (filter visible L) = Some pts -> cover L pts.
Proof.
  induction n as [|n IH]; intros L cx op hd pts Hn P A.
  { destruct L; [|cbn in Hn; lia]. cbn [filter arrange] in A. destruct cx; [|discriminate]. injection A as <-. constructor. }
  destruct L as [|[[k w] s] L].
  { cbn [filter arrange] in A. destruct cx; [|discriminate]. injection A as <-. constructor. }
  pose proof (pended_tail _ _ P) as P'. cbn [length] in Hn.
  destruct k; cbn [filter visible] in A; cbn [arrange] in A.
  - (* word *)
    assert (Plain : forall t, t <> TNl -> forall cx op hd pts, cons_tok t s (arrange cx op hd (filter visible L)) = Some pts ->
      cover ((RWord, w, s) :: L) pts).
    { intros t T cx' op' hd' pts' H. apply cons_tok_some in H. destruct H as (pts1 & H & ->).
      apply cover_one; [reflexivity|exact T|]. apply (IH _ _ _ _ _ (le_S_n _ _ Hn) P' H). }
    assert (Word : forall pts', match word_tok w with
        | TIf | TFor | TWhile | TFun => cons_tok (word_tok w) s (arrange cx false true (filter visible L))
        | TAtom _ => cons_tok (word_tok w) s (arrange cx true false (filter visible L))
        | _ => cons_tok (word_tok w) s (arrange cx false false (filter visible L))
        end = Some pts' -> cover ((RWord, w, s) :: L) pts').
    { intros pts' H. pose proof (word_tok_nl w) as N. destruct (word_tok w); try (apply (Plain _ N _ _ _ _ H)). }
    destruct (filter visible L) as [|[[k1 w1] s1] r1] eqn:F1; [apply Word; exact A|].
    destruct k1; try (apply Word; exact A).
    destruct r1 as [|[[k2 w2] s2] r2] eqn:F2; [apply Word; exact A|].
    destruct k2; try (apply Word; exact A).
    assert (Three : forall t, t <> TNl -> forall pts, cons_tok t (fst s, snd s2) (arrange cx true false r2) = Some pts ->
      cover ((RWord, w, s) :: L) pts).
    { intros t T pts' H. apply cons_tok_some in H. destruct H as (pts1 & H & ->).
      destruct (next_visible _ _ _ _ _ P' F1) as (sp1 & L1 & -> & S1 & Q1 & G1 & N1 & _); [discriminate|].
      destruct (next_visible _ _ _ _ _ Q1 G1) as (sp2 & L2 & -> & S2 & Q2 & G2 & N2 & _); [discriminate|].
      apply cover_three; try reflexivity; try assumption. rewrite <- G2 in H. refine (IH _ _ _ _ _ _ Q2 H). unfold placed in *. lia. }
    destruct (is_name w && teqb w1 (lit "::")); [refine (Three _ _ _ A); discriminate|].
    destruct (is_name w && teqb w1 (lit ":::")); [refine (Three _ _ _ A); discriminate|]. apply Word; exact A.
  - (* string *)
    apply cons_tok_some in A. destruct A as (pts1 & A & ->). apply cover_one; [reflexivity|discriminate|].
    apply (IH _ _ _ _ _ (le_S_n _ _ Hn) P' A).
  - (* operator *)
    assert (One : forall t, t <> TNl -> forall cx op hd pts, cons_tok t s (arrange cx op hd (filter visible L)) = Some pts ->
      cover ((ROp, w, s) :: L) pts).
    { intros t T cx' op' hd' pts' H. apply cons_tok_some in H. destruct H as (pts1 & H & ->).
      apply cover_one; [reflexivity|exact T|]. apply (IH _ _ _ _ _ (le_S_n _ _ Hn) P' H). }
    assert (Two : forall t, t <> TNl -> forall k2 w2 s2 r2 cx op hd pts, k2 <> RNl -> filter visible L = (k2, w2, s2) :: r2 ->
      cons_tok t (fst s, snd s2) (arrange cx op hd r2) = Some pts -> cover ((ROp, w, s) :: L) pts).
    { intros t T k2 w2 s2 r2 cx' op' hd' pts' K F H. apply cons_tok_some in H. destruct H as (pts1 & H & ->).
      destruct (next_visible _ _ _ _ _ P' F K) as (sp1 & L1 & -> & S1 & Q1 & G1 & N1 & K2).
      apply cover_two; try reflexivity; try assumption. rewrite <- G1 in H. refine (IH _ _ _ _ _ _ Q1 H). unfold placed in *. lia. }
    destruct (teqb w (lit "(")); [refine (One _ _ _ _ _ _ A); discriminate|].
    destruct (teqb w (lit ")")).
    { destruct cx as [|[h|d|] cx]; try discriminate. refine (One _ _ _ _ _ _ A); discriminate. }
    destruct (teqb w (lit "[")); [refine (One _ _ _ _ _ _ A); discriminate|].
    destruct (teqb w (lit "[[")); [refine (One _ _ _ _ _ _ A); discriminate|].
    destruct (teqb w (lit "]")).
    { destruct cx as [|[h|[|]|] cx]; try discriminate; [|refine (One _ _ _ _ _ _ A); discriminate].
      destruct (filter visible L) as [|[[k2 w2] s2] r2] eqn:F; [discriminate|]. destruct k2; try discriminate.
      destruct (teqb w2 (lit "]") && _); [|discriminate].
      refine (Two _ _ ROp _ _ _ _ _ _ _ _ eq_refl A); discriminate. }
    destruct (teqb w (lit "{")); [refine (One _ _ _ _ _ _ A); discriminate|].
    destruct (teqb w (lit "}")).
    { destruct cx as [|[h|d|] cx]; try discriminate. refine (One _ _ _ _ _ _ A); discriminate. }
    destruct (teqb w (lit ",")); [refine (One _ _ _ _ _ _ A); discriminate|].
    destruct (teqb w (lit "!")); [refine (One _ _ _ _ _ _ A); discriminate|].
    destruct (teqb w (lit "$") || teqb w (lit "@")).
    { destruct (filter visible L) as [|[[k2 w2] s2] r2] eqn:F; [discriminate|]. destruct k2; try discriminate.
      refine (Two _ _ RWord _ _ _ _ _ _ _ _ eq_refl A); discriminate. }
    destruct (binary w) as [o|]; [|discriminate]. refine (One _ _ _ _ _ _ A); discriminate.
  - (* line break *)
    assert (Drop : forall cx op hd pts, arrange cx op hd (filter visible L) = Some pts -> cover ((RNl, w, s) :: L) pts).
    { intros cx' op' hd' pts' H. apply cover_drop; [reflexivity|]. apply (IH _ _ _ _ _ (le_S_n _ _ Hn) P' H). }
    destruct op; [|exact (Drop _ _ _ _ A)].
    destruct (kept cx (after_breaks (filter visible L))) as [[|]|]; [|exact (Drop _ _ _ _ A)|discriminate].
    apply cons_tok_some in A. destruct A as (pts1 & A & ->). apply cover_nl. apply (IH _ _ _ _ _ (le_S_n _ _ Hn) P' A).
  - apply cover_drop; [reflexivity|]. apply (IH _ _ _ _ _ (le_S_n _ _ Hn) P' A).
  - apply cover_drop; [reflexivity|]. apply (IH _ _ _ _ _ (le_S_n _ _ Hn) P' A).
Qed.

Lemma chain_split : forall sp k w s L pos, chain pos (sp ++ (k, w, s) :: L) ->
  pos <= fst s /\ fst s < snd s /\ chain (snd s) L.
Proof.
  intros sp k w [a b] L pos C. apply chain_app in C. destruct C as (q & Q & C & _). cbn [chain] in C.
  destruct C as (-> & C1 & C). cbn [fst snd]. auto.
Qed.
Definition follows (s1 s2 : span) : Prop := snd s1 <= fst s2.
Lemma forall_later : forall p q l, p <= q ->
  Forall (fun s : span => q <= fst s /\ fst s < snd s) l -> Forall (fun s : span => p <= fst s /\ fst s < snd s) l.
Proof. intros p q l H. apply Forall_impl. intros s [A B]. lia. Qed.
Lemma forall_follows : forall a q l, Forall (fun s : span => q <= fst s /\ fst s < snd s) l -> Forall (follows (a, q)) l.
Proof. intros a q l. apply Forall_impl. intros s [A B]. exact A. Qed.
Lemma cover_sorted : forall L pts, cover L pts -> forall pos, chain pos L ->
  Forall (fun s : span => pos <= fst s /\ fst s < snd s) (map snd pts) /\ StronglySorted follows (map snd pts).
Proof.
  induction 1 as [|[[k w] [a b]] L pts K C IH|w [a b] L pts C IH|k w [a b] t L pts K T C IH
    |k1 w1 [a1 b1] sp1 k2 w2 s2 t L pts K1 K2 S1 T C IH
    |k1 w1 [a1 b1] sp1 k2 w2 s2 sp2 k3 w3 s3 t L pts K1 K2 K3 S1 S2 T C IH]; intros pos Ch.
  - split; constructor.
  - cbn [chain] in Ch. destruct Ch as (-> & H & Ch). destruct (IH _ Ch) as [A B]. split; [|exact B].
    apply (forall_later _ b); [lia|exact A].
  - cbn [chain] in Ch. destruct Ch as (-> & H & Ch). destruct (IH _ Ch) as [A B]. cbn [map snd]. split.
    + constructor; [cbn [fst snd]; lia|]. apply (forall_later _ b); [lia|exact A].
    + constructor; [exact B|]. apply forall_follows. exact A.
  - cbn [chain] in Ch. destruct Ch as (-> & H & Ch). destruct (IH _ Ch) as [A B]. cbn [map snd]. split.
    + constructor; [cbn [fst snd]; lia|]. apply (forall_later _ b); [lia|exact A].
    + constructor; [exact B|]. apply forall_follows. exact A.
  - cbn [chain] in Ch. destruct Ch as (-> & H & Ch). apply chain_split in Ch. destruct Ch as (H1 & H2 & Ch).
    destruct (IH _ Ch) as [A B]. cbn [map snd fst]. split.
    + constructor; [cbn [fst snd]; lia|]. apply (forall_later _ (snd s2)); [lia|exact A].
    + constructor; [exact B|]. apply forall_follows. exact A.
  - cbn [chain] in Ch. destruct Ch as (-> & H & Ch). apply chain_split in Ch. destruct Ch as (H1 & H2 & Ch).
    apply chain_split in Ch. destruct Ch as (H3 & H4 & Ch).
    destruct (IH _ Ch) as [A B]. cbn [map snd fst]. split.
    + constructor; [cbn [fst snd]; lia|]. apply (forall_later _ (snd s3)); [lia|exact A].
    + constructor; [exact B|]. apply forall_follows. exact A.
Qed.
Lemma no_comment_in : forall sp w s, Forall (fun p => kind p = RSpace) sp -> ~ In (RComment, w, s) sp.
Proof. intros sp w s F H. rewrite Forall_forall in F. discriminate (F _ H). Qed.
Lemma cover_comment : forall L pts, cover L pts -> forall pos w a b s, chain pos L ->
  In (RComment, w, (a, b)) L -> In s (map snd pts) -> b <= fst s \/ snd s <= a.
Proof.
  induction 1 as [|[[k w] [a b]] L pts K C IH|w [a b] L pts C IH|k w [a b] t L pts K T C IH
    |k1 w1 [a1 b1] sp1 k2 w2 s2 t L pts K1 K2 S1 T C IH
    |k1 w1 [a1 b1] sp1 k2 w2 s2 sp2 k3 w3 s3 t L pts K1 K2 K3 S1 S2 T C IH]; intros pos w0 a0 b0 s0 Ch I J.
  - contradiction.
  - cbn [chain] in Ch. destruct Ch as (-> & H & Ch). destruct I as [E|I].
    + injection E as -> -> -> ->. destruct (cover_sorted _ _ C _ Ch) as [A _]. rewrite Forall_forall in A. left. apply (A _ J).
    + exact (IH _ _ _ _ _ Ch I J).
  - cbn [chain] in Ch. destruct Ch as (-> & H & Ch). destruct I as [E|I]; [discriminate E|].
    destruct J as [<-|J]; [|exact (IH _ _ _ _ _ Ch I J)]. right. apply (chain_in _ _ _ _ _ _ Ch I).
  - cbn [chain] in Ch. destruct Ch as (-> & H & Ch). destruct I as [E|I]; [injection E as -> _ _ _; discriminate K|].
    destruct J as [<-|J]; [|exact (IH _ _ _ _ _ Ch I J)]. right. apply (chain_in _ _ _ _ _ _ Ch I).
  - cbn [chain] in Ch. destruct Ch as (-> & H & Ch). apply chain_split in Ch. destruct Ch as (H1 & H2 & Ch).
    destruct I as [E|I]; [injection E as -> _ _ _; discriminate K1|].
    apply in_app_or in I. destruct I as [I|[E|I]]; [destruct (no_comment_in _ _ _ S1 I)|injection E as -> _ _; discriminate K2|].
    destruct J as [<-|J]; [|exact (IH _ _ _ _ _ Ch I J)]. right. apply (chain_in _ _ _ _ _ _ Ch I).
  - cbn [chain] in Ch. destruct Ch as (-> & H & Ch). apply chain_split in Ch. destruct Ch as (H1 & H2 & Ch).
    apply chain_split in Ch. destruct Ch as (H3 & H4 & Ch).
    destruct I as [E|I]; [injection E as -> _ _ _; discriminate K1|].
    apply in_app_or in I. destruct I as [I|[E|I]]; [destruct (no_comment_in _ _ _ S1 I)|injection E as -> _ _; discriminate K2|].
    apply in_app_or in I. destruct I as [I|[E|I]]; [destruct (no_comment_in _ _ _ S2 I)|injection E as -> _ _; discriminate K3|].
    destruct J as [<-|J]; [|exact (IH _ _ _ _ _ Ch I J)]. right. apply (chain_in _ _ _ _ _ _ Ch I).
Qed.
Lemma cover_start : forall L pts, cover L pts -> forall t s, In (t, s) pts -> t <> TNl ->
  exists k w y, In (k, w, (fst s, y)) L /\ solid k = true.
Proof.
  induction 1 as [|[[k w] [a b]] L pts K C IH|w [a b] L pts C IH|k w [a b] t L pts K T C IH
    |k1 w1 [a1 b1] sp1 k2 w2 s2 t L pts K1 K2 S1 T C IH
    |k1 w1 [a1 b1] sp1 k2 w2 s2 sp2 k3 w3 s3 t L pts K1 K2 K3 S1 S2 T C IH]; intros t0 s0 J N.
  - contradiction.
  - destruct (IH _ _ J N) as (k' & w' & y & A & B). exists k', w', y. split; [right; exact A|exact B].
  - destruct J as [E|J]; [congruence|]. destruct (IH _ _ J N) as (k' & w' & y & A & B). exists k', w', y. split; [right; exact A|exact B].
  - destruct J as [E|J]; [injection E as <- <-; exists k, w, b; split; [left; reflexivity|exact K]|].
    destruct (IH _ _ J N) as (k' & w' & y & A & B). exists k', w', y. split; [right; exact A|exact B].
  - destruct J as [E|J]; [injection E as <- <-; exists k1, w1, b1; split; [left; reflexivity|exact K1]|].
    destruct (IH _ _ J N) as (k' & w' & y & A & B). exists k', w', y. split; [right; apply in_or_app; right; right; exact A|exact B].
  - destruct J as [E|J]; [injection E as <- <-; exists k1, w1, b1; split; [left; reflexivity|exact K1]|].
    destruct (IH _ _ J N) as (k' & w' & y & A & B). exists k', w', y.
    split; [right; apply in_or_app; right; right; apply in_or_app; right; right; exact A|exact B].
Qed.
Lemma no_solid_in : forall sp k w s, Forall (fun p => kind p = RSpace) sp -> solid k = true -> ~ In (k, w, s) sp.
Proof. intros sp k w s F K H. rewrite Forall_forall in F. specialize (F _ H). cbn in F. subst. discriminate. Qed.
Lemma cover_solid : forall L pts, cover L pts -> forall pos k w x y, chain pos L -> solid k = true -> In (k, w, (x, y)) L ->
  exists s, In s (map snd pts) /\ fst s <= x /\ y <= snd s.
Proof.
  induction 1 as [|[[k w] [a b]] L pts K C IH|w [a b] L pts C IH|k w [a b] t L pts K T C IH
    |k1 w1 [a1 b1] sp1 k2 w2 [a2 b2] t L pts K1 K2 S1 T C IH
    |k1 w1 [a1 b1] sp1 k2 w2 [a2 b2] sp2 k3 w3 [a3 b3] t L pts K1 K2 K3 S1 S2 T C IH]; intros pos k0 w0 x y Ch K0 J.
  - contradiction.
  - cbn [chain] in Ch. destruct Ch as (-> & H & Ch). destruct J as [E|J]; [injection E as -> -> -> ->; cbn in K; congruence|]. exact (IH _ _ _ _ _ Ch K0 J).
  - cbn [chain] in Ch. destruct Ch as (-> & H & Ch). destruct J as [E|J]; [injection E as <- <- <- <-; discriminate K0|].
    destruct (IH _ _ _ _ _ Ch K0 J) as (s & A & B). exists s. split; [right; exact A|exact B].
  - cbn [chain] in Ch. destruct Ch as (-> & H & Ch). destruct J as [E|J].
    + injection E as <- <- <- <-. eexists. split; [left; reflexivity|]. cbn [fst snd]. lia.
    + destruct (IH _ _ _ _ _ Ch K0 J) as (s & A & B). exists s. split; [right; exact A|exact B].
  - cbn [chain] in Ch. destruct Ch as (-> & H & Ch). apply chain_split in Ch. cbn [fst snd] in Ch. destruct Ch as (H1 & H2 & Ch).
    destruct J as [E|J]; [injection E as <- <- <- <-; eexists; split; [left; reflexivity|cbn [fst snd]; lia]|].
    apply in_app_or in J. destruct J as [J|[E|J]]; [destruct (no_solid_in _ _ _ _ S1 K0 J)| |].
    + injection E as <- <- <- <-. eexists; split; [left; reflexivity|cbn [fst snd]; lia].
    + destruct (IH _ _ _ _ _ Ch K0 J) as (s & A & B). exists s. split; [right; exact A|exact B].
  - cbn [chain] in Ch. destruct Ch as (-> & H & Ch). apply chain_split in Ch. cbn [fst snd] in Ch. destruct Ch as (H1 & H2 & Ch).
    apply chain_split in Ch. cbn [fst snd] in Ch. destruct Ch as (H3 & H4 & Ch).
    destruct J as [E|J]; [injection E as <- <- <- <-; eexists; split; [left; reflexivity|cbn [fst snd]; lia]|].
    apply in_app_or in J. destruct J as [J|[E|J]]; [destruct (no_solid_in _ _ _ _ S1 K0 J)| |].
    + injection E as <- <- <- <-. eexists; split; [left; reflexivity|cbn [fst snd]; lia].
    + apply in_app_or in J. destruct J as [J|[E|J]]; [destruct (no_solid_in _ _ _ _ S2 K0 J)| |].
      * injection E as <- <- <- <-. eexists; split; [left; reflexivity|cbn [fst snd]; lia].
      * destruct (IH _ _ _ _ _ Ch K0 J) as (s & A & B). exists s. split; [right; exact A|exact B].
Qed.

(** ** To which token a comment belongs *)
Lemma comments_has : forall L pos fr pe w a b, chain pos L -> pe <= pos -> In (RComment, w, (a, b)) L ->
  exists c, In c (comments fr pe L) /\ (c = inr b \/ exists e, c = inl e /\ e <= a /\ pe <= e /\
    forall k w x y, solid k = true -> In (k, w, (x, y)) L -> y <= a -> y <= e).
Proof.
  induction L as [|[[k0 w0] [a0 b0]] L IH]; intros pos fr pe w a b Ch Hp J; [contradiction|].
  cbn [chain] in Ch. destruct Ch as (-> & H & Ch).
  destruct J as [E|J].
  - injection E as -> -> -> ->. cbn [comments]. eexists. split; [left; reflexivity|]. destruct fr; [left; reflexivity|].
    right. exists pe. repeat split; auto. intros k w' x y K J Hy. exfalso.
    destruct J as [E|J]; [injection E as <- _ _ _; discriminate K|]. pose proof (chain_in _ _ _ _ _ _ Ch J). lia.
  - assert (Solid : solid k0 = true -> exists c, In c (comments false b0 L) /\ (c = inr b \/ exists e, c = inl e /\ e <= a /\ pe <= e /\
      forall k w x y, solid k = true -> In (k, w, (x, y)) ((k0, w0, (pos, b0)) :: L) -> y <= a -> y <= e)).
    { intros K. destruct (IH b0 false b0 w a b Ch (le_n _) J) as (c & C1 & [C2|(e & C2 & C3 & C4 & C5)]); exists c; split; auto.
      right. exists e. repeat split; auto; [lia|]. intros k' w' x y K' [E|J'] Hy; [injection E as <- <- <- <-; exact C4|].
      exact (C5 _ _ _ _ K' J' Hy). }
    assert (Other : forall fr', solid k0 = false -> exists c, In c (comments fr' pe L) /\ (c = inr b \/ exists e, c = inl e /\ e <= a /\ pe <= e /\
      forall k w x y, solid k = true -> In (k, w, (x, y)) ((k0, w0, (pos, b0)) :: L) -> y <= a -> y <= e)).
    { intros fr' K. destruct (IH b0 fr' pe w a b Ch) as (c & C1 & [C2|(e & C2 & C3 & C4 & C5)]); [lia|exact J|..]; exists c; split; auto.
      right. exists e. repeat split; auto. intros k' w' x y K' [E|J'] Hy; [injection E as <- <- <- <-; congruence|].
      exact (C5 _ _ _ _ K' J' Hy). }
    destruct k0; cbn [comments]; try (apply Solid; reflexivity); try (apply Other; reflexivity).
    destruct (Other fr eq_refl) as (c & C1 & C2). exists c. split; [right; exact C1|exact C2].
Qed.
Lemma comments_inl : forall L fr pe e, In (inl e) (comments fr pe L) ->
  (fr = false /\ e = pe /\ exists mid w s post, L = mid ++ (RComment, w, s) :: post /\ Forall (fun p => kind p = RSpace) mid) \/
  (exists pre k w r mid w' s post, L = pre ++ (k, w, (r, e)) :: mid ++ (RComment, w', s) :: post /\ Forall (fun p => kind p = RSpace) mid).
Proof.
  induction L as [|[[k0 w0] [a0 b0]] L IH]; intros fr pe e H; [contradiction|].
  assert (Later : forall P, P \/ (exists pre k w r mid w' s post, L = pre ++ (k, w, (r, e)) :: mid ++ (RComment, w', s) :: post /\ Forall (fun p => kind p = RSpace) mid) ->
    P \/ (exists pre k w r mid w' s post, (k0, w0, (a0, b0)) :: L = pre ++ (k, w, (r, e)) :: mid ++ (RComment, w', s) :: post /\ Forall (fun p => kind p = RSpace) mid)).
  { intros P [HP|(pre & k & w & r & mid & w' & s & post & -> & F)]; [left; exact HP|].
    right. exists ((k0, w0, (a0, b0)) :: pre), k, w, r, mid, w', s, post. split; [reflexivity|exact F]. }
  assert (Solid : solid k0 = true -> In (inl e) (comments false b0 L) -> (fr = false /\ e = pe /\
      exists mid w s post, (k0, w0, (a0, b0)) :: L = mid ++ (RComment, w, s) :: post /\ Forall (fun p => kind p = RSpace) mid) \/
    (exists pre k w r mid w' s post, (k0, w0, (a0, b0)) :: L = pre ++ (k, w, (r, e)) :: mid ++ (RComment, w', s) :: post /\ Forall (fun p => kind p = RSpace) mid)).
  { intros K J. destruct (IH _ _ _ J) as [(_ & -> & mid & w & s & post & -> & F)|R].
    - right. exists [], k0, w0, a0, mid, w, s, post. split; [reflexivity|exact F].
    - apply Later. right. exact R. }
  destruct k0; cbn [comments] in H; try (apply Solid; [reflexivity|exact H]).
  - destruct (IH _ _ _ H) as [(E & _)|R]; [discriminate|]. apply Later. right. exact R.
  - destruct H as [E|H].
    + destruct fr; [discriminate|]. injection E as ->. left. repeat split. exists [], w0, (a0, b0), L. split; [reflexivity|constructor].
    + destruct (IH _ _ _ H) as [(E1 & E2 & mid & w & s & post & -> & F)|R]; [|apply Later; right; exact R].
      left. repeat split; auto. exists [], w0, (a0, b0), (mid ++ (RComment, w, s) :: post). split; [reflexivity|constructor].
  - destruct (IH _ _ _ H) as [(E1 & E2 & mid & w & s & post & -> & F)|R]; [|apply Later; right; exact R].
    left. repeat split; auto. exists ((RSpace, w0, (a0, b0)) :: mid), w, s, post. split; [reflexivity|]. constructor; [reflexivity|exact F].
Qed.
Lemma comments_inr : forall L fr pe b, In (inr b) (comments fr pe L) -> exists w a, In (RComment, w, (a, b)) L.
Proof.
  induction L as [|[[k0 w0] [a0 b0]] L IH]; intros fr pe b H; [contradiction|].
  destruct k0; cbn [comments] in H;
    try (destruct (IH _ _ _ H) as (w & a & J); exists w, a; right; exact J).
  destruct H as [E|H].
  - destruct fr; [injection E as ->|discriminate]. exists w0, a0. left. reflexivity.
  - destruct (IH _ _ _ H) as (w & a & J). exists w, a. right. exact J.
Qed.

(** ** Where a diagnostic is *)
From Verif Require Import Spec.RSearch Proofs.RParseSound Proofs.RContext Proofs.RSearchProofs Proofs.InPlace Proofs.ConfigProofs.

Lemma nth_split_at : forall {A} (l : list A) i x, nth_error l i = Some x -> l = firstn i l ++ x :: skipn (S i) l.
Proof.
  induction l as [|y l IH]; intros [|i] x H; try discriminate.
  - injection H as ->. reflexivity.
  - cbn [nth_error] in H. cbn [firstn skipn app]. f_equal. exact (IH i x H).
Qed.
Lemma report_tokens : forall s p ds j n r, only_functions (unreachable s) -> check_file s p = ROk ds ->
  In (j, (n, r)) ds -> n <> lit "unreachable_code" ->
  nth_error p j = Some (plug (at_frames r) (at_node r)) /\
  exists B, prog_toks p = (sep_before [TNl] (map toks (firstn j p)) ++ pre_toks (at_frames r)) ++ toks (at_node r) ++ B.
Proof.
  intros s p ds j n r U C I N. apply (check_file_exact s p ds U C) in I. destruct I as (e & fs & x & P & E & _ & F).
  apply fires_in_place in F; [|exact N]. unfold in_place in F. rewrite F, E. split; [exact P|].
  assert (Q : prog_toks p = prog_toks (firstn j p ++ e :: skipn (S j) p)) by (f_equal; exact (nth_split_at p j e P)).
  rewrite Q. unfold prog_toks. rewrite map_app. cbn [map]. rewrite sep_app.
  rewrite <- E, <- F, plug_toks. eexists. rewrite <- !app_assoc. reflexivity.
Qed.
Lemma map_app_inv : forall {A B} (f : A -> B) l a b, map f l = a ++ b -> exists l1 l2, l = l1 ++ l2 /\ map f l1 = a /\ map f l2 = b.
Proof.
  intros A B f l a. revert l. induction a as [|x a IH]; intros l b H; [exists [], l; auto|].
  destruct l as [|y l]; [discriminate|]. injection H as <- H. destruct (IH _ _ H) as (l1 & l2 & -> & <- & <-).
  exists (y :: l1), l2. auto.
Qed.
Lemma report_written : forall s t pts p ds j n r, only_functions (unreachable s) ->
  tokens t = Some pts -> reads (map fst pts) p -> check_file s p = ROk ds -> In (j, (n, r)) ds -> n <> lit "unreachable_code" ->
  exists x y, report_span (map snd pts) p j r = (x, y) /\ written t j (at_frames r) (at_node r) x y.
Proof.
  intros s t pts p ds j n r U T R C I N.
  destruct (report_tokens s p ds j n r U C I N) as (P & B & E).
  assert (M : map fst pts = prog_toks p) by (apply (reads_iff (map fst pts) p), R).
  rewrite E in M. apply map_app_inv in M. destruct M as (before & rest & -> & M1 & M2).
  apply map_app_inv in M2. destruct M2 as (node & after & -> & M2 & M3).
  destruct node as [|first more].
  { destruct (toks_head (at_node r)) as (k & ts & H & _). rewrite H in M2. discriminate. }
  assert (L : exists l last, first :: more = l ++ [last]).
  { destruct (exists_last (l := first :: more)) as (l & last & H); [discriminate|]. eauto. }
  destruct L as (l & last & L).
  exists (fst (snd first)), (snd (snd last)). split.
  - unfold report_span, first_token. rewrite <- app_length, <- M1, <- M2, !map_length. unfold node_span.
    f_equal.
    + rewrite map_app, app_nth2; rewrite map_length; [|lia]. rewrite Nat.sub_diag. reflexivity.
    + rewrite L, app_length. cbn [length]. rewrite !map_app, app_nth2; rewrite map_length; [|lia].
      replace (length before + (length l + 1) - 1 - length before) with (length l) by lia.
      rewrite app_nth1 by (rewrite app_length, !map_length; cbn [length]; lia).
      rewrite app_nth2; rewrite map_length; [|lia]. rewrite Nat.sub_diag. reflexivity.
  - exists p, before, first, more, last, after. repeat split; auto. exists l. exact L.
Qed.

(** ** Comments inside *)
Lemma sorted_app : forall a (s : span) b, StronglySorted follows (a ++ s :: b) -> Forall (fun s' => follows s' s) a /\ Forall (follows s) b.
Proof.
  induction a as [|s0 a IH]; intros s b H; cbn [app] in H; inversion H; subst.
  - split; [constructor|assumption].
  - destruct (IH _ _ H2) as [A B]. split; [|exact B]. constructor; [|exact A].
    rewrite Forall_app in H3. destruct H3 as [_ H3]. inversion H3; subst. assumption.
Qed.
Lemma find_first : forall (f : span -> bool) a s b, f s = true -> exists s', find f (a ++ s :: b) = Some s' /\ (In s' a \/ s' = s) /\ f s' = true.
Proof.
  intros f a s b F. induction a as [|s0 a IH]; cbn [app find].
  - rewrite F. exists s. auto.
  - destruct (f s0) eqn:E; [exists s0; split; [reflexivity|]; split; [left; left; reflexivity|exact E]|].
    destruct IH as (s' & H1 & [H2|H2] & H3); exists s'; split; [exact H1| |exact H1|]; split; auto. left. right. exact H2.
Qed.
Section Node.
Variables (L : list placed) (pts : list ptok).
Hypothesis C : cover L pts.
Hypothesis Ch : chain 0 L.
Variables (before : list ptok) (first : ptok) (more after l : list ptok) (last : ptok).
Hypothesis Ep : pts = before ++ (first :: more) ++ after.
Hypothesis El : first :: more = l ++ [last].
Hypothesis Fk : fst first <> TNl.
Let x := fst (snd first).
Let y := snd (snd last).

Lemma spans_last : map snd pts = (map snd before ++ map snd l) ++ snd last :: map snd after.
Proof. rewrite Ep, El, !map_app. cbn [map]. rewrite <- !app_assoc. reflexivity. Qed.
Lemma spans_first : map snd pts = map snd before ++ snd first :: map snd (more ++ after).
Proof. rewrite Ep, map_app. reflexivity. Qed.
Lemma inside_counts : forall w a b, In (RComment, w, (a, b)) L -> x <= a -> b <= y ->
  existsb (fun c => let e := owner_end (map snd pts) c in (x <? e) && (e <=? y)) (comments true 0 L) = true.
Proof.
  intros w a b I Hx Hy. apply existsb_exists.
  destruct (chain_in _ _ _ _ _ _ Ch I) as [_ Hab].
  destruct (cover_sorted _ _ C _ Ch) as [Pos Sorted].
  destruct (comments_has L 0 true 0 w a b Ch (le_n _) I) as (c & I1 & [->|(e & -> & He & _ & Hs)]).
  - exists (inr b). split; [exact I1|]. cbn [owner_end].
    assert (Hl : b <= fst (snd last)).
    { destruct (cover_comment _ _ C _ _ _ _ (snd last) Ch I) as [H|H]; [|exact H|unfold y in Hy; lia].
      rewrite spans_last. apply in_or_app. right. left. reflexivity. }
    pose proof (find_first (fun s : span => b <=? fst s) (map snd before ++ map snd l) (snd last) (map snd after)
      (proj2 (Nat.leb_le _ _) Hl)) as (s' & F & J & G).
    rewrite <- spans_last in F. rewrite F. apply Nat.leb_le in G. cbn zeta.
    rewrite Forall_forall in Pos.
    assert (J' : In s' (map snd pts)).
    { rewrite spans_last. apply in_or_app. destruct J as [J|J]; [left; exact J|right; left; symmetry; exact J]. }
    destruct (Pos _ J') as [_ Hp]. apply andb_true_intro. split; [apply Nat.ltb_lt; lia|apply Nat.leb_le].
    rewrite spans_last in Sorted. apply sorted_app in Sorted. destruct Sorted as [Before _].
    destruct J as [J| ->]; [|unfold y; lia]. rewrite Forall_forall in Before. specialize (Before _ J). unfold follows in Before.
    destruct (Pos (snd last)) as [_ Hq]; [rewrite spans_last; apply in_or_app; right; left; reflexivity|]. unfold y. lia.
  - exists (inl e). split; [exact I1|]. cbn [owner_end]. cbn zeta.
    destruct (cover_start _ _ C (fst first) (snd first)) as (k & w' & y' & K1 & K2).
    { rewrite Ep. destruct first. apply in_or_app. right. left. reflexivity. }
    { exact Fk. }
    fold x in K1. destruct (chain_in _ _ _ _ _ _ Ch K1) as [_ Hk].
    assert (Y : y' <= a).
    { destruct (chain_disjoint _ _ _ _ _ _ _ _ _ _ Ch K1 I) as [H|[H|H]]; [exact H|lia|].
      injection H as -> _ _ _. discriminate K2. }
    specialize (Hs _ _ _ _ K2 K1 Y). apply andb_true_intro. split; [apply Nat.ltb_lt|apply Nat.leb_le]; lia.
Qed.
Lemma trailing_after : forall e, In (inl e) (comments true 0 L) ->
  exists pre k w r mid w' s post, L = pre ++ (k, w, (r, e)) :: mid ++ (RComment, w', s) :: post /\ Forall (fun p => kind p = RSpace) mid.
Proof. intros e H. destruct (comments_inl _ _ _ _ H) as [(H1 & _)|H1]; [discriminate|exact H1]. Qed.
Lemma first_solid : forall P, (exists k w s, In (k, w, s) P /\ solid k = true) ->
  exists mid k w s post, P = mid ++ (k, w, s) :: post /\ Forall (fun p => solid (kind p) = false) mid /\ solid k = true.
Proof.
  induction P as [|[[k w] s] P IH]; intros (k' & w' & s' & I & K); [contradiction|].
  destruct (solid k) eqn:E; [exists [], k, w, s, P; repeat split; [constructor|exact E]|].
  destruct I as [I|I]; [injection I as -> _ _; congruence|].
  destruct IH as (mid & k1 & w1 & s1 & post & -> & F & K1); [exists k', w', s'; auto|].
  exists ((k, w, s) :: mid), k1, w1, s1, post. repeat split; auto.
Qed.
Lemma leading_before : forall b s, In (inr b) (comments true 0 L) ->
  find (fun s : span => b <=? fst s) (map snd pts) = Some s -> fst s = x ->
  exists pre w s' mid k w' y' post, L = pre ++ (RComment, w, s') :: mid ++ (k, w', (x, y')) :: post /\
    Forall (fun p => In (kind p) [RSpace; RNl; RComment]) mid.
Proof.
  intros b s I F Es. destruct (comments_inr _ _ _ _ I) as (w & a & J).
  destruct (chain_in _ _ _ _ _ _ Ch J) as [_ Hab].
  destruct (in_split _ _ J) as (pre & post & E).
  destruct (cover_start _ _ C (fst first) (snd first)) as (k & w' & y' & K1 & K2).
  { rewrite Ep. destruct first. apply in_or_app. right. left. reflexivity. }
  { exact Fk. }
  fold x in K1. destruct (chain_in _ _ _ _ _ _ Ch K1) as [_ Hxy]. apply find_some in F as F'. destruct F' as [Fi Fb]. apply Nat.leb_le in Fb.
  assert (K3 : In (k, w', (x, y')) post).
  { rewrite E in K1. apply in_app_or in K1. destruct K1 as [K1|[K1|K1]]; [|injection K1 as <- _ _ _; discriminate K2|exact K1].
    exfalso. pose proof Ch as Ch'; rewrite E in Ch'; apply chain_app in Ch'; destruct Ch' as (q & _ & Q & Q2). specialize (Q2 _ _ _ _ K1).
    cbn [chain] in Q. destruct Q as (-> & _ & _).
    lia. }
  destruct (first_solid post) as (mid & k1 & w1 & [x1 y1] & post' & -> & M & K4).
  { exists k, w', (x, y'). auto. }
  assert (Ex : x1 = x).
  { assert (In1 : In (k1, w1, (x1, y1)) L).
    { rewrite E. apply in_or_app. right. right. apply in_or_app. right. left. reflexivity. }
    assert (Hb : b <= x1).
    { pose proof Ch as Ch'; rewrite E in Ch'; apply chain_app in Ch'; destruct Ch' as (q & _ & Q & _). cbn [chain] in Q. destruct Q as (_ & _ & Q).
      apply chain_split in Q. cbn [fst] in Q. lia. }
    destruct (chain_in _ _ _ _ _ _ Ch In1) as [_ H1].
    assert (Hx1 : x1 <= x).
    { apply in_app_or in K3. destruct K3 as [K3|[K3|K3]].
      - rewrite Forall_forall in M. specialize (M _ K3). cbn in M. congruence.
      - injection K3 as _ _ -> _. lia.
      - pose proof Ch as Ch'; rewrite E in Ch'; apply chain_app in Ch'; destruct Ch' as (q & _ & Q & _). cbn [chain] in Q. destruct Q as (_ & _ & Q).
        apply chain_split in Q. destruct Q as (_ & Q1 & Q). pose proof (chain_in _ _ _ _ _ _ Q K3). cbn [fst snd] in *. lia. }
    destruct (cover_solid _ _ C _ _ _ _ _ Ch K4 In1) as (s' & S1 & S2 & S3).
    assert (S4 : b <= fst s').
    { destruct (cover_comment _ _ C _ _ _ _ _ Ch J S1) as [H|H]; [exact H|lia]. }
    destruct (cover_sorted _ _ C _ Ch) as [Pos Sorted]. rewrite Forall_forall in Pos.
    (* the first token after the comment is [s] *)
    destruct (in_split _ _ S1) as (a1 & a2 & Ea).
    destruct (find_first (fun s : span => b <=? fst s) a1 s' a2 (proj2 (Nat.leb_le _ _) S4)) as (s2 & F2 & [G2|G2] & _).
    - rewrite <- Ea, F in F2. injection F2 as <-. rewrite Ea in Sorted. apply sorted_app in Sorted. destruct Sorted as [B _].
      rewrite Forall_forall in B. specialize (B _ G2). unfold follows in B. destruct (Pos _ Fi). lia.
    - rewrite <- Ea, F in F2. injection F2 as <-. subst s'. lia. }
  subst x1. exists pre, w, (a, b), mid, k1, w1, y1, post'. split; [exact E|].
  eapply Forall_impl; [|exact M]. intros [[kk ww] ss] H. cbn in *. destruct kk; try discriminate; auto.
Qed.
End Node.

(** ** The pieces are the text *)
Definition held (st : lstate) : text :=
  match st with
  | LIdle | LBad => []
  | LSpace w | LWord w | LStr w _ _ | LTick w | LPercent w | LOp w | LComment w => w
  end.
Definition flat (ps : list piece) : text := concat (map snd ps).
Lemma flat_app : forall a b, flat (a ++ b) = flat a ++ flat b.
Proof. intros a b. unfold flat. rewrite map_app, concat_app. reflexivity. Qed.
Lemma start_flat : forall c, let '(out, st) := start_piece c in st <> LBad -> flat out ++ held st = [c].
Proof.
  intros c. unfold start_piece.
  repeat match goal with |- context [if ?b then _ else _] => destruct b; [reflexivity|] end. congruence.
Qed.
Lemma next_flat : forall k w c, let '(out, st) := next_piece (k, w) c in st <> LBad -> flat out ++ held st = w ++ [c].
Proof.
  intros k w c. unfold next_piece. pose proof (start_flat c) as H. destruct (start_piece c) as [out st]. intros B.
  unfold flat. cbn [map snd concat]. rewrite <- app_assoc. f_equal. exact (H B).
Qed.
Lemma step_flat : forall st c, let '(out, st') := lex_step st c in st' <> LBad -> flat out ++ held st' = held st ++ [c].
Proof.
  intros st c. destruct st as [|w|w|w q esc|w|w|w|w|]; cbn [lex_step held].
  - apply start_flat.
  - destruct (space_char c); [reflexivity|apply next_flat].
  - destruct (word_char c || _); [reflexivity|]. destruct (quote c && _); [congruence|apply next_flat].
  - destruct esc; [reflexivity|]. destruct (ceqb c q); [|reflexivity]. intros _. unfold flat. cbn. rewrite !app_nil_r. reflexivity.
  - destruct (ceqb c 96%N); [|reflexivity]. intros _. unfold flat. cbn. rewrite !app_nil_r. reflexivity.
  - destruct (ceqb c 37%N); [intros _; unfold flat; cbn; rewrite !app_nil_r; reflexivity|].
    destruct (ceqb c 10%N); [congruence|reflexivity].
  - destruct (is_long (w ++ [c])); [reflexivity|apply next_flat].
  - destruct (ceqb c 10%N); [apply next_flat|reflexivity].
  - congruence.
Qed.
Lemma bad_stays : forall t, lex_run LBad t = ([], LBad).
Proof. induction t as [|c t IH]; [reflexivity|]. cbn [lex_run lex_step]. rewrite IH. reflexivity. Qed.
Lemma run_flat : forall t st, let '(out, st') := lex_run st t in st' <> LBad -> flat out ++ held st' = held st ++ t.
Proof.
  induction t as [|c t IH]; intros st; cbn [lex_run]; [intros _; rewrite app_nil_r; reflexivity|].
  pose proof (step_flat st c) as S. destruct (lex_step st c) as [a st1].
  specialize (IH st1). destruct (lex_run st1 t) as [b st2] eqn:R. intros B.
  assert (B1 : st1 <> LBad) by (intros ->; rewrite bad_stays in R; congruence).
  rewrite flat_app. etransitivity; [symmetry; apply app_assoc|]. rewrite (IH B), app_assoc, (S B1), <- app_assoc. reflexivity.
Qed.
Lemma pieces_concat : forall t ps, pieces t = Some ps -> flat ps = t.
Proof.
  intros t ps H. unfold pieces in H. pose proof (run_flat t LIdle) as F. destruct (lex_run LIdle t) as [out st].
  destruct st as [|w|w|w q esc|w|w|w|w|]; cbn [lex_end option_map held] in *; try discriminate; injection H as <-;
    unfold flat in *; rewrite ?map_app, ?concat_app; cbn [map snd concat]; rewrite ?app_nil_r in *; apply F; discriminate.
Qed.
Lemma place_end : forall ps pos k w x y, In (k, w, (x, y)) (place_pieces pos ps) -> y <= pos + blen (flat ps).
Proof.
  induction ps as [|[k0 w0] ps IH]; intros pos k w x y H; [contradiction|]. unfold flat in *. cbn [place_pieces map snd concat] in *.
  rewrite blen_app. destruct H as [E|H]; [injection E as <- <- <- <-; lia|]. specialize (IH _ _ _ _ _ H). lia.
Qed.
Lemma cover_in_text : forall L pts, cover L pts -> forall s, In s (map snd pts) -> exists k w x, In (k, w, (x, snd s)) L.
Proof.
  induction 1 as [|[[k w] [a b]] L pts K C IH|w [a b] L pts C IH|k w [a b] t L pts K T C IH
    |k1 w1 [a1 b1] sp1 k2 w2 [a2 b2] t L pts K1 K2 S1 T C IH
    |k1 w1 [a1 b1] sp1 k2 w2 [a2 b2] sp2 k3 w3 [a3 b3] t L pts K1 K2 K3 S1 S2 T C IH]; intros s J.
  - contradiction.
  - destruct (IH _ J) as (k' & w' & x & A). exists k', w', x. right. exact A.
  - destruct J as [<-|J]; [exists RNl, w, a; left; reflexivity|]. destruct (IH _ J) as (k' & w' & x & A). exists k', w', x. right. exact A.
  - destruct J as [<-|J]; [exists k, w, a; left; reflexivity|]. destruct (IH _ J) as (k' & w' & x & A). exists k', w', x. right. exact A.
  - destruct J as [<-|J]; [exists k2, w2, a2; right; apply in_or_app; right; left; reflexivity|].
    destruct (IH _ J) as (k' & w' & x & A). exists k', w', x. right. apply in_or_app. right. right. exact A.
  - destruct J as [<-|J]; [exists k3, w3, a3; right; apply in_or_app; right; right; apply in_or_app; right; left; reflexivity|].
    destruct (IH _ J) as (k' & w' & x & A). exists k', w', x. right. apply in_or_app. right. right. apply in_or_app. right. right. exact A.
Qed.
Lemma tokens_cover : forall t ps pts, pieces t = Some ps -> tokens t = Some pts ->
  cover (place_pieces 0 ps) pts /\ chain 0 (place_pieces 0 ps).
Proof.
  intros t ps pts P T. unfold tokens in T. rewrite P in T. destruct (pieces_fine _ _ P) as [A B].
  split; [|apply place_chain; exact B]. apply (arrange_cover _ _ _ _ _ _ (le_n _) (place_ended _ _ A) T).
Qed.

(** ** Diagnostics *)
Lemma diag_from : forall c o u t ds d, get_checks c o u t = Some ds -> In d ds ->
  exists ps pts p fs j n r, pieces t = Some ps /\ tokens t = Some pts /\ reads (map fst pts) p /\
    check_file (settings_of c o u) p = ROk fs /\ In (j, (n, r)) fs /\
    d = filter_fix c (diag_of (map snd pts) (comments true 0 (place_pieces 0 ps)) p (j, (n, r))).
Proof.
  intros c o u t ds d H I. unfold get_checks in H.
  destruct (pieces t) as [ps|]; [|discriminate]. destruct (tokens t) as [pts|] eqn:T; [|discriminate].
  destruct (parse (map fst pts)) as [p|] eqn:P; [|discriminate].
  destruct (check_file (settings_of c o u) p) as [fs| |] eqn:C; try discriminate. injection H as <-.
  apply in_map_iff in I. destruct I as (d1 & <- & I). apply in_map_iff in I. destruct I as ([j [n r]] & <- & I).
  exists ps, pts, p, fs, j, n, r. repeat split; auto. apply parse_reads, P.
Qed.
Lemma written_range : forall t j fs e x y, written t j fs e x y -> x < y /\ y <= blen t.
Proof.
  intros t j fs e x y (p & before & first & more & last & after & T & _ & _ & _ & _ & Ex & (l & El) & Ey).
  assert (P : exists ps, pieces t = Some ps) by (unfold tokens in T; destruct (pieces t); [eauto|discriminate]).
  destruct P as [ps P]. destruct (tokens_cover _ _ _ P T) as [C Ch].
  destruct (cover_sorted _ _ C _ Ch) as [Pos Sorted]. rewrite Forall_forall in Pos.
  rewrite (spans_last _ before first more after l last eq_refl El) in Pos.
  assert (I2 : In (snd last) ((map snd before ++ map snd l) ++ snd last :: map snd after)) by (apply in_or_app; right; left; reflexivity).
  destruct (Pos _ I2) as [_ B2]. split.
  - rewrite (spans_last _ before first more after l last eq_refl El) in Sorted. destruct (sorted_app (map snd before ++ map snd l) (snd last) (map snd after) Sorted) as [S _].
    destruct l as [|f' l]; cbn [app] in El; injection El as -> _; [subst; exact B2|].
    rewrite Forall_forall in S. assert (F : follows (snd f') (snd last)).
    { apply S. apply in_or_app. right. left. reflexivity. }
    assert (I1 : In (snd f') ((map snd before ++ map snd (f' :: l)) ++ snd last :: map snd after)).
    { apply in_or_app. left. apply in_or_app. right. left. reflexivity. }
    destruct (Pos _ I1) as [_ B1]. unfold follows in F. lia.
  - rewrite <- (spans_last _ before first more after l last eq_refl El) in I2. destruct (cover_in_text _ _ C _ I2) as (k & w & x' & I).
    apply place_end in I. rewrite (pieces_concat _ _ P) in I. lia.
Qed.
Lemma diag_written : forall c o u t ds d, only_functions u -> get_checks c o u t = Some ds -> In d ds ->
  d_rule d <> lit "unreachable_code" ->
  exists j fs e, written t j fs e (d_start d) (d_end d) /\ d_start d < d_end d /\ d_end d <= blen t /\
    (is_empty_fix (d_fix d) = true \/ f_start (d_fix d) = d_start d /\ f_end (d_fix d) = d_end d).
Proof.
  intros c o u t ds d U H I N. destruct (diag_from _ _ _ _ _ _ H I) as (ps & pts & p & fs & j & n & r & P & T & R & C & J & ->).
  destruct (filter_fix_shape c (diag_of (map snd pts) (comments true 0 (place_pieces 0 ps)) p (j, (n, r)))) as (E1 & E2 & E3 & E4).
  rewrite E1 in N. cbn [diag_of d_rule] in N.
  destruct (report_written (settings_of c o u) _ _ _ _ _ _ _ U T R C J N) as (x & y & S & W).
  cbn [diag_of] in *. rewrite S in *. cbn [fst snd d_start d_end d_fix] in *.
  exists j, (at_frames r), (at_node r). rewrite E2, E3. destruct (written_range _ _ _ _ _ _ W). repeat split; auto.
  destruct E4 as [E4|E4]; rewrite E4; [|left; reflexivity].
  unfold fix_of. destruct (new_text r); [right; auto|left; reflexivity].
Qed.
Lemma starter_nl : forall k, starter k -> k <> TNl.
Proof. intros k H ->. exact H. Qed.
Lemma comment_blocks_fix : forall c o u t ds d s, only_functions u -> get_checks c o u t = Some ds -> In d ds ->
  d_rule d <> lit "unreachable_code" -> d_rule d <> lit "assignment" -> is_empty_fix (d_fix d) = false ->
  comment_at t s -> f_start (d_fix d) <= fst s -> snd s <= f_end (d_fix d) ->
  comment_before t (f_start (d_fix d)) \/ comment_after t (f_end (d_fix d)).
Proof.
  intros c o u t ds d s U H I N NA NE CA Hs He.
  destruct (diag_from _ _ _ _ _ _ H I) as (ps & pts & p & fs & j & n & r & P & T & R & C & J & Ed).
  set (d0 := diag_of (map snd pts) (comments true 0 (place_pieces 0 ps)) p (j, (n, r))) in *.
  destruct (filter_fix_shape c d0) as (E1 & E2 & E3 & E4).
  assert (Ek : d_fix d = d_fix d0) by (rewrite Ed in *; destruct E4 as [E4|E4]; [exact E4|rewrite E4 in NE; discriminate]).
  rewrite Ed, E1 in N, NA. unfold d0 in N, NA. cbn [diag_of d_rule] in N, NA.
  destruct (report_written (settings_of c o u) _ _ _ _ _ _ _ U T R C J N) as (x & y & S & W).
  assert (Skip : f_skip (d_fix d0) = false).
  { destruct (f_skip (d_fix d0)) eqn:E; [|reflexivity]. exfalso. rewrite Ed in NE. unfold filter_fix in NE.
    repeat match type of NE with context [if ?b then _ else _] => destruct b eqn:? end;
    repeat match type of NE with context [match ?b with Some _ => _ | None => _ end] => destruct b eqn:? end;
    repeat match type of NE with context [if ?b then _ else _] => destruct b eqn:? end;
    cbn [drop_fix d_fix] in *; try discriminate; congruence. }
  rewrite Ek in *. unfold d0 in Hs, He, Skip, NE |- *. cbn [diag_of d_fix] in Hs, He, Skip, NE |- *. rewrite S in *. cbn [fst snd] in *.
  unfold fix_of in *. destruct (new_text r) as [cont|]; [|discriminate NE].
  cbn [f_start f_end f_skip fst snd] in *.
  replace (teqb n (lit "assignment")) with false in Skip by (symmetry; apply teqb_neq; exact NA). cbn [negb andb] in Skip.
  destruct W as (p' & before & first & more & last & after & T' & R' & _ & _ & M & Ex & (l & El) & Ey).
  rewrite T in T'. injection T' as T'. destruct (tokens_cover _ _ _ P T) as [Cov Ch].
  destruct CA as (ps' & w & P' & CA). rewrite P in P'. injection P' as <-. destruct s as [a b]. cbn [fst snd] in Hs, He.
  assert (Fk : fst first <> TNl).
  { destruct (toks_head (at_node r)) as (k & ts & Ht & Hk). cbn [map] in M. rewrite Ht in M. injection M as -> _. apply starter_nl, Hk. }
  pose proof (inside_counts _ _ Cov Ch before first more after l last T' El Fk w a b CA) as In1.
  rewrite Ex, Ey in In1. specialize (In1 Hs He).
  unfold node_contains_comments in Skip. cbn [fst snd] in Skip. cbv zeta in In1, Skip. rewrite In1 in Skip. cbn [andb] in Skip.
  apply andb_false_iff in Skip. destruct Skip as [Sk|Sk]; apply negb_false_iff, existsb_exists in Sk; destruct Sk as (cm & Ic & Tc).
  - right. destruct cm as [e|e]; [|discriminate]. apply Nat.eqb_eq in Tc. subst e.
    destruct (trailing_after _ _ Ic) as (pre & k & w1 & r1 & mid & w2 & s2 & post & E & F).
    exists ps, pre, k, w1, r1, mid, w2, s2, post. auto.
  - left. destruct cm as [e|e]; [discriminate|]. destruct (find _ _) as [sp|] eqn:Fd; [|discriminate]. apply Nat.eqb_eq in Tc.
    rewrite <- Ex in Tc. destruct (leading_before _ _ Cov Ch before first more after l last T' El Fk _ _ Ic Fd Tc)
      as (pre & w1 & s1 & mid & k & w2 & y1 & post & E & F).
    rewrite Ex in E. exists ps, pre, w1, s1, mid, k, w2, y1, post. auto.
Qed.
