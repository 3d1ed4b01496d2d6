(** Replacing the text of an expression replaces its tokens, and nothing else. *)
From Coq Require Import Sorting.Sorted.
From Verif Require Import Spec.RText Proofs.TextProofs Proofs.RParse Proofs.RContext Proofs.CommentProofs.

(** ** Cutting the text *)
Definition full (st : lstate) (t : text) : option (list piece) :=
  let '(ps, s) := lex_run st t in option_map (app ps) (lex_end s).
Lemma full_cons : forall st c t, full st (c :: t) = option_map (app (fst (lex_step st c))) (full (snd (lex_step st c)) t).
Proof.
  intros st c t. unfold full. cbn [lex_run]. destruct (lex_step st c) as [a st1]. cbn [fst snd]. destruct (lex_run st1 t) as [b st2].
  destruct (lex_end st2); [|reflexivity]. cbn [option_map]. rewrite app_assoc. reflexivity.
Qed.
Lemma full_bad : forall t, full LBad t = None.
Proof. intros t. unfold full. rewrite bad_stays. reflexivity. Qed.

(** The three ways to read a character. *)
Inductive how (st : lstate) (c : char) : Prop :=
| how_on st1 : lex_step st c = ([], st1) -> st1 <> LIdle -> how st c
| how_next p : lex_step st c = (p :: fst (start_piece c), snd (start_piece c)) -> lex_end st = Some [p] -> st <> LIdle -> how st c
| how_done p : lex_step st c = ([p], LIdle) -> how st c.
Lemma how_start : forall c, (exists p, start_piece c = ([p], LIdle)) \/ (exists st, start_piece c = ([], st) /\ st <> LIdle).
Proof.
  intros c. unfold start_piece. destruct (ceqb c 10%N); [left; eauto|].
  repeat match goal with |- context [if ?b then _ else _] => destruct b; [right; eexists; split; [reflexivity|discriminate]|] end.
  right. eexists. split; [reflexivity|discriminate].
Qed.
Lemma how_step : forall st c, how st c.
Proof.
  intros st c. destruct st as [|w|w|w q esc|w|w|w|w|].
  - destruct (how_start c) as [[p E]|(st & E & N)]; [eapply how_done; exact E|eapply how_on; [exact E|exact N]].
  - destruct (space_char c) eqn:X; [eapply how_on; [cbn [lex_step]; rewrite X; reflexivity|discriminate]|].
    eapply how_next; [|reflexivity|discriminate]. cbn [lex_step]. rewrite X. unfold next_piece. destruct (start_piece c). reflexivity.
  - destruct (word_char c || (exponent w && (ceqb c 43%N || ceqb c 45%N))) eqn:X;
      [eapply how_on; [cbn [lex_step]; rewrite X; reflexivity|discriminate]|].
    destruct (quote c && (teqb w (lit "r") || teqb w (lit "R"))) eqn:Y;
      [eapply how_on; [cbn [lex_step]; rewrite X, Y; reflexivity|discriminate]|].
    eapply how_next; [|reflexivity|discriminate]. cbn [lex_step]. rewrite X, Y. unfold next_piece. destruct (start_piece c). reflexivity.
  - destruct esc; [eapply how_on; [reflexivity|discriminate]|]. destruct (ceqb c q) eqn:X.
    + eapply how_done. cbn [lex_step]. rewrite X. reflexivity.
    + eapply how_on; [cbn [lex_step]; rewrite X; reflexivity|discriminate].
  - destruct (ceqb c 96%N) eqn:X.
    + eapply how_done. cbn [lex_step]. rewrite X. reflexivity.
    + eapply how_on; [cbn [lex_step]; rewrite X; reflexivity|discriminate].
  - destruct (ceqb c 37%N) eqn:X.
    + eapply how_done. cbn [lex_step]. rewrite X. reflexivity.
    + destruct (ceqb c 10%N) eqn:Y; (eapply how_on; [cbn [lex_step]; rewrite X, Y; reflexivity|discriminate]).
  - destruct (is_long (w ++ [c])) eqn:X; [eapply how_on; [cbn [lex_step]; rewrite X; reflexivity|discriminate]|].
    eapply how_next; [|reflexivity|discriminate]. cbn [lex_step]. rewrite X. unfold next_piece. destruct (start_piece c). reflexivity.
  - destruct (ceqb c 10%N) eqn:X; [|eapply how_on; [cbn [lex_step]; rewrite X; reflexivity|discriminate]].
    eapply how_next; [|reflexivity|discriminate]. cbn [lex_step]. rewrite X. unfold next_piece. destruct (start_piece c). reflexivity.
  - eapply how_on; [reflexivity|discriminate].
Qed.
Lemma full_nil : forall st, full st [] = lex_end st.
Proof. intros st. unfold full. cbn [lex_run]. destruct (lex_end st); reflexivity. Qed.

Lemma cons_nn : forall {A} (a : A) l, a :: l <> [].
Proof. discriminate. Qed.
Lemma full_split : forall t st PA PB, (PA <> [] \/ st = LIdle) -> full st t = Some (PA ++ PB) ->
  exists tA tB, t = tA ++ tB /\ full st tA = Some PA /\ full LIdle tB = Some PB.
Proof.
  induction t as [|c t IH]; intros st PA PB N H.
  - rewrite full_nil in H. destruct st; cbn [lex_end] in H; try discriminate; injection H as H.
    + destruct PA; [|discriminate]. destruct PB; [|discriminate]. exists [], []. auto.
    + destruct N as [N|N]; [|discriminate]. destruct PA as [|a PA]; [congruence|]. injection H as <- H. destruct PA; [|discriminate]. destruct PB; [|discriminate].
      exists [], []. auto.
    + destruct N as [N|N]; [|discriminate]. destruct PA as [|a PA]; [congruence|]. injection H as <- H. destruct PA; [|discriminate]. destruct PB; [|discriminate].
      exists [], []. auto.
    + destruct N as [N|N]; [|discriminate]. destruct PA as [|a PA]; [congruence|]. injection H as <- H. destruct PA; [|discriminate]. destruct PB; [|discriminate].
      exists [], []. auto.
    + destruct N as [N|N]; [|discriminate]. destruct PA as [|a PA]; [congruence|]. injection H as <- H. destruct PA; [|discriminate]. destruct PB; [|discriminate].
      exists [], []. auto.
  - destruct PA as [|a PA].
    { destruct N as [N| ->]; [congruence|]. exists [], (c :: t). split; [reflexivity|]. split; [reflexivity|exact H]. }
    rewrite full_cons in H. destruct (how_step st c) as [st1 E X|p E X Y|p E].
    + rewrite E in H. cbn [fst snd] in H. destruct (full st1 t) as [r|] eqn:F; [|discriminate]. injection H as ->.
      destruct (IH st1 (a :: PA) PB (or_introl (@cons_nn _ _ _)) F) as (tA & tB & -> & FA & FB).
      exists (c :: tA), tB. split; [reflexivity|]. split; [|exact FB]. rewrite full_cons, E. cbn [fst snd]. rewrite FA. reflexivity.
    + assert (G : full LIdle (c :: t) = option_map (app (fst (start_piece c))) (full (snd (start_piece c)) t)) by (rewrite full_cons; reflexivity).
      rewrite E in H. cbn [fst snd] in H. destruct (full (snd (start_piece c)) t) as [r|] eqn:F; [|discriminate].
      cbn [option_map app] in H. injection H as -> H. cbn [option_map] in G. rewrite H in G.
      destruct PA as [|a1 PA].
      * exists [], (c :: t). split; [reflexivity|]. split; [rewrite full_nil; exact X|exact G].
      * destruct (how_start c) as [[q Q]|(st2 & Q & N2)]; rewrite Q in *; cbn [fst snd app] in *.
        -- injection H as -> H. subst r. destruct (IH LIdle PA PB (or_intror eq_refl) F) as (tA & tB & -> & FA & FB).
           exists (c :: tA), tB. split; [reflexivity|]. split; [|exact FB]. rewrite full_cons, E. cbn [fst snd]. rewrite FA. reflexivity.
        -- subst r. destruct (IH st2 (a1 :: PA) PB (or_introl (@cons_nn _ _ _)) F) as (tA & tB & -> & FA & FB).
           exists (c :: tA), tB. split; [reflexivity|]. split; [|exact FB]. rewrite full_cons, E. cbn [fst snd]. rewrite FA. reflexivity.
    + rewrite E in H. cbn [fst snd] in H. destruct (full LIdle t) as [r|] eqn:F; [|discriminate]. cbn [option_map app] in H. injection H as -> ->.
      destruct (IH LIdle PA PB (or_intror eq_refl) F) as (tA & tB & -> & FA & FB).
      exists (c :: tA), tB. split; [reflexivity|]. split; [|exact FB]. rewrite full_cons, E. cbn [fst snd]. rewrite FA. reflexivity.
Qed.
Lemma pieces_split : forall t PA PB, pieces t = Some (PA ++ PB) -> pieces (flat PA) = Some PA /\ pieces (flat PB) = Some PB /\ t = flat PA ++ flat PB.
Proof.
  intros t PA PB H. destruct (full_split t LIdle PA PB (or_intror eq_refl) H) as (tA & tB & -> & A & B).
  rewrite (pieces_concat _ _ A), (pieces_concat _ _ B). auto.
Qed.

(** ** Where the pieces are *)
Lemma place_app : forall P pos Q, place_pieces pos (P ++ Q) = place_pieces pos P ++ place_pieces (pos + blen (flat P)) Q.
Proof.
  induction P as [|[k w] P IH]; intros pos Q; cbn [app place_pieces].
  - cbn. rewrite Nat.add_0_r. reflexivity.
  - rewrite IH. unfold flat. cbn [map snd concat]. rewrite blen_app, Nat.add_assoc. reflexivity.
Qed.
Lemma place_starts : forall ps pos k w a b, In (k, w, (a, b)) (place_pieces pos ps) ->
  exists P Q, ps = P ++ (k, w) :: Q /\ a = pos + blen (flat P).
Proof.
  induction ps as [|[k0 w0] ps IH]; intros pos k w a b H; [contradiction|]. cbn [place_pieces] in H. destruct H as [E|H].
  - injection E as <- <- <- <-. exists [], ps. split; [reflexivity|]. cbn. lia.
  - destruct (IH _ _ _ _ _ H) as (P & Q & -> & ->). exists ((k0, w0) :: P), Q. split; [reflexivity|].
    unfold flat. cbn [map snd concat]. rewrite blen_app. lia.
Qed.
Lemma place_len : forall ps pos k w a b, In (k, w, (a, b)) (place_pieces pos ps) -> b = a + blen w.
Proof.
  induction ps as [|[k0 w0] ps IH]; intros pos k w a b H; [contradiction|]. cbn [place_pieces] in H. destruct H as [E|H].
  - injection E as <- <- <- <-. reflexivity.
  - exact (IH _ _ _ _ _ H).
Qed.
Lemma place_ends : forall ps pos k w a b, In (k, w, (a, b)) (place_pieces pos ps) ->
  exists P Q, ps = (P ++ [(k, w)]) ++ Q /\ b = pos + blen (flat (P ++ [(k, w)])).
Proof.
  intros ps pos k w a b H. rewrite (place_len _ _ _ _ _ _ H). destruct (place_starts _ _ _ _ _ _ H) as (P & Q & -> & ->). exists P, Q.
  split; [rewrite <- app_assoc; reflexivity|].
  rewrite flat_app. unfold flat at 3. cbn [map snd concat]. rewrite app_nil_r, blen_app. lia.
Qed.

(** ** The state of the arrangement after some tokens *)
Definition astate := (list opened * bool * bool)%type.
Definition after_tok (st : astate) (k : tok) : option astate :=
  let '(cx, op, hd) := st in
  match k with
  | TAtom _ | TExtract _ _ => Some (cx, true, false)
  | TBang | TOp _ | TComma | TElse | TIn | TRepeat => Some (cx, false, false)
  | TIf | TFor | TWhile | TFun => Some (cx, false, true)
  | TLp => Some (OParen hd :: cx, false, false)
  | TRp => match cx with OParen h :: cx' => Some (cx', negb h, false) | _ => None end
  | TLb d => Some (OBracket d :: cx, false, false)
  | TRb _ => match cx with OBracket _ :: cx' => Some (cx', true, false) | _ => None end
  | TLc => Some (OBrace :: cx, false, false)
  | TRc => match cx with OBrace :: cx' => Some (cx', true, false) | _ => None end
  | TNl => if op then Some (cx, false, hd) else None
  end.
Fixpoint after_toks (st : astate) (ts : list tok) : option astate :=
  match ts with
  | [] => Some st
  | k :: r => match after_tok st k with Some st' => after_toks st' r | None => None end
  end.
Lemma after_toks_app : forall a b st, after_toks st (a ++ b) = match after_toks st a with Some st' => after_toks st' b | None => None end.
Proof. induction a as [|k a IH]; intros b st; [reflexivity|]. cbn [app after_toks]. destruct (after_tok st k); [apply IH|reflexivity]. Qed.

Definition sp_of (p : placed) : span := snd p.
Definition no_colons (R : list placed) : Prop :=
  match R with (ROp, o, _) :: _ => teqb o (lit "::") = false /\ teqb o (lit ":::") = false | _ => True end.
Lemma colons_fail : forall cx op hd R pts, arrange cx op hd R = Some pts -> no_colons R.
Proof.
  intros cx op hd [|[[k w] s] R] pts H; [exact Logic.I|]. destruct k; try exact Logic.I. unfold no_colons.
  assert (F : forall o, binary o = None -> teqb o (lit "(") = false -> teqb o (lit ")") = false -> teqb o (lit "[") = false -> teqb o (lit "[[") = false ->
    teqb o (lit "]") = false -> teqb o (lit "{") = false -> teqb o (lit "}") = false -> teqb o (lit ",") = false -> teqb o (lit "!") = false ->
    teqb o (lit "$") = false -> teqb o (lit "@") = false -> teqb w o = false).
  { intros o E0 E1 E2 E3 E4 E5 E6 E7 E8 E9 E10 E11. destruct (teqb w o) eqn:E; [|reflexivity]. apply teqb_eq in E. subst o.
    cbn [arrange] in H. rewrite E1, E2, E3, E4, E5, E6, E7, E8, E9, E10, E11, E0 in H. discriminate. }
  split; apply F; vm_compute; reflexivity.
Qed.

Lemma after_breaks_app : forall V R R', (exists V0 p, V = V0 ++ [p] /\ kind p <> RNl) -> after_breaks (V ++ R) = after_breaks (V ++ R').
Proof.
  induction V as [|[[k w] s] V IH]; intros R R' (V0 & p & E & K); [destruct V0; discriminate|].
  destruct k; try reflexivity. cbn [app after_breaks]. apply IH. destruct V0 as [|q V0].
  - injection E as <- ->. contradiction K; reflexivity.
  - injection E as _ ->. eauto.
Qed.
Lemma cons_tok_map : forall k s (r : option (list ptok)), cons_tok k s r = option_map (cons (k, s)) r.
Proof. reflexivity. Qed.
Lemma map_map_app : forall (q : ptok) pV r, cons_tok (fst q) (snd q) (option_map (app pV) r) = option_map (app (q :: pV)) r.
Proof. intros [k s] pV [r|]; reflexivity. Qed.

Definition ends_solid (V : list placed) : Prop := V = [] \/ exists V0 p, V = V0 ++ [p] /\ kind p <> RNl.
Lemma ends_tail : forall p V, ends_solid (p :: V) -> ends_solid V.
Proof.
  intros p V [H|(V0 & q & E & K)]; [discriminate|]. destruct V0 as [|q0 V0]; [injection E as -> ->; left; reflexivity|].
  injection E as -> ->. right. eauto.
Qed.
(** No token has a part before and a part after the cut. *)
Definition clean (R : list placed) (x : nat) (pts : list ptok) : Prop :=
  (exists w s r, R = (RNl, w, s) :: r) \/ Forall (fun p => fst (sp_of p) < snd (sp_of p) /\ x <= fst (sp_of p)) R /\ Forall (fun q : ptok => snd (snd q) <= x \/ x <= fst (snd q)) pts.
Lemma clean_tail : forall R x q pts, clean R x (q :: pts) -> clean R x pts.
Proof. intros R x q pts [H|[F H]]; [left; exact H|right; split; [exact F|inversion H; assumption]]. Qed.
Definition small (x : nat) (p : placed) : Prop := fst (sp_of p) < snd (sp_of p) /\ snd (sp_of p) <= x.
Definition large (x : nat) (p : placed) : Prop := fst (sp_of p) < snd (sp_of p) /\ x <= fst (sp_of p).
Definition cut (cx : list opened) (op hd : bool) (V R : list placed) (x : nat) (pts : list ptok) : Prop :=
  exists pV pR cx' op' hd', pts = pV ++ pR /\ arrange cx' op' hd' R = Some pR /\
    after_toks (cx, op, hd) (map fst pV) = Some (cx', op', hd') /\
    Forall (fun q : ptok => fst (snd q) < x) pV /\
    forall R', no_colons R' -> arrange cx op hd (V ++ R') = option_map (app pV) (arrange cx' op' hd' R').
Lemma cut_drop : forall cx op hd p V R x pts, cut cx op hd V R x pts ->
  (forall R', no_colons R' -> arrange cx op hd (p :: V ++ R') = arrange cx op hd (V ++ R')) -> cut cx op hd (p :: V) R x pts.
Proof.
  intros cx op hd p V R x pts (pV & pR & cx' & op' & hd' & E & A & T & F & N) H. exists pV, pR, cx', op', hd'.
  repeat split; auto. intros R' C. cbn [app]. rewrite (H R' C). apply N, C.
Qed.
Lemma cut_emit : forall cx op hd cx1 op1 hd1 V1 V R x k s pts, cut cx1 op1 hd1 V R x pts ->
  after_tok (cx, op, hd) k = Some (cx1, op1, hd1) -> fst s < x ->
  (forall R', no_colons R' -> arrange cx op hd ((V1 ++ V) ++ R') = cons_tok k s (arrange cx1 op1 hd1 (V ++ R'))) ->
  cut cx op hd (V1 ++ V) R x ((k, s) :: pts).
Proof.
  intros cx op hd cx1 op1 hd1 V1 V R x k s pts (pV & pR & cx' & op' & hd' & E & A & T & F & N) K Sx H.
  exists ((k, s) :: pV), pR, cx', op', hd'. split; [rewrite E; reflexivity|]. split; [exact A|].
  split; [cbn [map fst after_toks]; rewrite K; exact T|]. split; [constructor; [exact Sx|exact F]|].
  intros R' C. rewrite (H R' C), (N R' C). exact (map_map_app (k, s) pV _).
Qed.
Definition ns_of (r : list placed) : option (bool * text * span * list placed) :=
  match r with
  | (ROp, o, _) :: (RWord, n, s2) :: r' =>
      if teqb o (lit "::") then Some (false, n, s2, r') else if teqb o (lit ":::") then Some (true, n, s2, r') else None
  | _ => None
  end.
Definition word_op (w : text) : bool := match word_tok w with TAtom _ => true | _ => false end.
Definition word_hd (w : text) : bool := match word_tok w with TIf | TFor | TWhile | TFun => true | _ => false end.
Lemma arrange_word : forall cx op hd w s r, arrange cx op hd ((RWord, w, s) :: r) =
  match (if is_name w then ns_of r else None) with
  | Some (i, n, s2, r') => cons_tok (TAtom (ANs w i n)) (fst s, snd s2) (arrange cx true false r')
  | None => cons_tok (word_tok w) s (arrange cx (word_op w) (word_hd w) r)
  end.
Proof.
  intros cx op hd w s r.
  assert (P : (match word_tok w with
        | TIf | TFor | TWhile | TFun => cons_tok (word_tok w) s (arrange cx false true r)
        | TAtom _ => cons_tok (word_tok w) s (arrange cx true false r)
        | _ => cons_tok (word_tok w) s (arrange cx false false r)
        end) = cons_tok (word_tok w) s (arrange cx (word_op w) (word_hd w) r)).
  { unfold word_op, word_hd. destruct (word_tok w); reflexivity. }
  cbn [arrange]. cbv zeta. rewrite P. destruct r as [|[[k1 o] s1] r]; [destruct (is_name w); reflexivity|]. destruct k1; try (destruct (is_name w); reflexivity).
  destruct r as [|[[k2 n] s2] r]; [destruct (is_name w); reflexivity|]. destruct k2; try (destruct (is_name w); reflexivity). cbn [ns_of].
  destruct (is_name w); [|reflexivity]. cbn [andb]. destruct (teqb o (lit "::")); [reflexivity|]. destruct (teqb o (lit ":::")); reflexivity.
Qed.
Lemma word_after : forall cx op hd w, after_tok (cx, op, hd) (word_tok w) = Some (cx, word_op w, word_hd w).
Proof.
  intros cx op hd w. unfold word_op, word_hd, word_tok.
  repeat match goal with |- context [if ?b then _ else _] => destruct b; [reflexivity|] end. reflexivity.
Qed.
Lemma ns_none : forall R, no_colons R -> ns_of R = None.
Proof.
  intros [|[[k1 o] s1] [|[[k2 n] s2] R]] H; try reflexivity; destruct k1; try reflexivity. destruct k2; try reflexivity.
  cbn [no_colons ns_of] in *. destruct H as [-> ->]. reflexivity.
Qed.
Lemma cut_word : forall n V R x cx op hd w s pts,
  (forall V R x cx op hd pts, length V <= n -> ends_solid V -> Forall (small x) V -> clean R x pts ->
    arrange cx op hd (V ++ R) = Some pts -> cut cx op hd V R x pts) ->
  length V <= n -> ends_solid V -> Forall (small x) V -> clean R x pts -> fst s < x ->
  arrange cx op hd ((RWord, w, s) :: V ++ R) = Some pts -> cut cx op hd ((RWord, w, s) :: V) R x pts.
Proof.
  intros n V R x cx op hd w s pts IH L E FV CL Sx H. rewrite arrange_word in H.
  assert (Plain : (if is_name w then ns_of (V ++ R) else None) = None -> (forall R', no_colons R' -> (if is_name w then ns_of (V ++ R') else None) = None) ->
    cut cx op hd ((RWord, w, s) :: V) R x pts).
  { intros N N'. rewrite N in H. apply cons_tok_some in H. destruct H as (pts' & H & ->).
    apply (cut_emit cx op hd cx (word_op w) (word_hd w) [(RWord, w, s)] V R x _ s pts'); auto.
    - apply (IH V R x cx _ _ pts' L E FV (clean_tail _ _ _ _ CL) H).
    - apply word_after.
    - intros R' C. cbn [app]. rewrite arrange_word, (N' R' C). reflexivity. }
  destruct (is_name w) eqn:Nm; [|apply Plain; [reflexivity|intros; reflexivity]].
  assert (Bad : forall k o s2 r, R = (k, o, s2) :: r -> k <> RNl -> forall t p pts', In p R -> pts = (t, (fst s, snd (sp_of p))) :: pts' -> False).
  { intros k o s2 r -> K t p pts' I ->. destruct CL as [(? & ? & ? & CL)|[FR CL]]; [congruence|].
    rewrite Forall_forall in FR. specialize (FR _ I). inversion CL as [|? ? [B|B] ?]; cbn [fst snd] in B; lia. }
  destruct V as [|p1 [|p2 V]].
  - cbn [app] in *. destruct (ns_of R) as [[[[i m] s2] r']|] eqn:N; [|apply Plain; [reflexivity|apply ns_none]].
    exfalso. apply cons_tok_some in H. destruct H as (pts' & _ & Ep).
    destruct R as [|[[k1 o] s1] [|[[k2 n2] s3] R]]; try discriminate; destruct k1; try discriminate. destruct k2; try discriminate.
    cbn [ns_of] in N. assert (s3 = s2) by (destruct (teqb o (lit "::")); [|destruct (teqb o (lit ":::")); [|discriminate]]; injection N; auto). subst s3.
    eapply (Bad _ _ _ _ eq_refl); [discriminate|right; left; reflexivity|exact Ep].
  - cbn [app] in *. destruct (ns_of (p1 :: R)) as [[[[i m] s2] r']|] eqn:N.
    + exfalso. apply cons_tok_some in H. destruct H as (pts' & _ & Ep).
      destruct p1 as [[k1 o] s1]. destruct k1; try discriminate. destruct R as [|[[k2 n2] s3] R]; [discriminate|]. destruct k2; try discriminate.
      cbn [ns_of] in N. assert (s3 = s2) by (destruct (teqb o (lit "::")); [|destruct (teqb o (lit ":::")); [|discriminate]]; injection N; auto). subst s3.
      eapply (Bad _ _ _ _ eq_refl); [discriminate|left; reflexivity|exact Ep].
    + apply Plain; [reflexivity|]. intros R' _. apply cons_tok_some in H. destruct H as (pts' & H & _).
      apply colons_fail in H. apply (ns_none (p1 :: R')). destruct p1 as [[k1 o] s1]. destruct k1; exact H || exact Logic.I.
  - destruct p1 as [[k1 o] s1]. destruct k1; try (apply Plain; [reflexivity|intros; reflexivity]).
    destruct p2 as [[k2 m] s2]. destruct k2; try (apply Plain; [reflexivity|intros; reflexivity]).
    cbn [app ns_of] in *. 
    assert (Go : forall i, (forall R', ns_of ((ROp, o, s1) :: (RWord, m, s2) :: V ++ R') = Some (i, m, s2, V ++ R')) ->
      cons_tok (TAtom (ANs w i m)) (fst s, snd s2) (arrange cx true false (V ++ R)) = Some pts ->
      cut cx op hd ((RWord, w, s) :: (ROp, o, s1) :: (RWord, m, s2) :: V) R x pts).
    { intros i N H1. apply cons_tok_some in H1. destruct H1 as (pts' & H1 & ->).
      apply (cut_emit cx op hd cx true false [(RWord, w, s); (ROp, o, s1); (RWord, m, s2)] V R x _ (fst s, snd s2) pts'); auto.
      - apply IH; auto.
        + cbn [length] in L. lia.
        + exact (ends_tail _ _ (ends_tail _ _ E)).
        + inversion FV as [|? ? _ F1]. inversion F1; assumption.
        + exact (clean_tail _ _ _ _ CL).
      - intros R' _. cbn [app]. rewrite arrange_word, Nm, N. reflexivity. }
    destruct (teqb o (lit "::")) eqn:O1; [apply (Go false); [intros R'; cbn [ns_of]; rewrite O1; reflexivity|exact H]|].
    destruct (teqb o (lit ":::")) eqn:O2; [apply (Go true); [intros R'; cbn [ns_of]; rewrite O1, O2; reflexivity|exact H]|].
    apply Plain; [reflexivity|intros; reflexivity].
Qed.
Inductive op_case (cx : list opened) (op hd : bool) (w : text) (s : span) : Prop :=
| op_one k cx1 op1 hd1 : after_tok (cx, op, hd) k = Some (cx1, op1, hd1) ->
    (forall r, arrange cx op hd ((ROp, w, s) :: r) = cons_tok k s (arrange cx1 op1 hd1 r)) -> op_case cx op hd w s
| op_none : (forall r, arrange cx op hd ((ROp, w, s) :: r) = None) -> op_case cx op hd w s
| op_double cx' : cx = OBracket true :: cx' ->
    (forall r, arrange cx op hd ((ROp, w, s) :: r) =
       match r with
       | (ROp, w2, s2) :: r' =>
           if teqb w2 (lit "]") && (snd s =? fst s2) then cons_tok (TRb true) (fst s, snd s2) (arrange cx' true false r') else None
       | _ => None
       end) -> op_case cx op hd w s
| op_extract : (forall r, arrange cx op hd ((ROp, w, s) :: r) =
       match r with
       | (RWord, n, s2) :: r' => cons_tok (TExtract w n) (fst s, snd s2) (arrange cx true false r')
       | _ => None
       end) -> op_case cx op hd w s.
Lemma op_cases : forall cx op hd w s, op_case cx op hd w s.
Proof.
  intros cx op hd w s.
  destruct (teqb w (lit "(")) eqn:E1; [eapply op_one with (k := TLp); [reflexivity|intros r; cbn [arrange]; rewrite E1; reflexivity]|].
  destruct (teqb w (lit ")")) eqn:E2.
  { destruct cx as [|[h|d|] cx]; try (apply op_none; intros r; cbn [arrange]; rewrite E1, E2; reflexivity).
    eapply op_one with (k := TRp); [reflexivity|intros r; cbn [arrange]; rewrite E1, E2; reflexivity]. }
  destruct (teqb w (lit "[")) eqn:E3; [eapply op_one with (k := TLb false); [reflexivity|intros r; cbn [arrange]; rewrite E1, E2, E3; reflexivity]|].
  destruct (teqb w (lit "[[")) eqn:E4; [eapply op_one with (k := TLb true); [reflexivity|intros r; cbn [arrange]; rewrite E1, E2, E3, E4; reflexivity]|].
  destruct (teqb w (lit "]")) eqn:E5.
  { destruct cx as [|[h|d|] cx]; try (apply op_none; intros r; cbn [arrange]; rewrite E1, E2, E3, E4, E5; reflexivity).
    destruct d.
    - eapply op_double; [reflexivity|]. intros r. cbn [arrange]. rewrite E1, E2, E3, E4, E5. reflexivity.
    - eapply op_one with (k := TRb false); [reflexivity|intros r; cbn [arrange]; rewrite E1, E2, E3, E4, E5; reflexivity]. }
  destruct (teqb w (lit "{")) eqn:E6; [eapply op_one with (k := TLc); [reflexivity|intros r; cbn [arrange]; rewrite E1, E2, E3, E4, E5, E6; reflexivity]|].
  destruct (teqb w (lit "}")) eqn:E7.
  { destruct cx as [|[h|d|] cx]; try (apply op_none; intros r; cbn [arrange]; rewrite E1, E2, E3, E4, E5, E6, E7; reflexivity).
    eapply op_one with (k := TRc); [reflexivity|intros r; cbn [arrange]; rewrite E1, E2, E3, E4, E5, E6, E7; reflexivity]. }
  destruct (teqb w (lit ",")) eqn:E8; [eapply op_one with (k := TComma); [reflexivity|intros r; cbn [arrange]; rewrite E1, E2, E3, E4, E5, E6, E7, E8; reflexivity]|].
  destruct (teqb w (lit "!")) eqn:E9; [eapply op_one with (k := TBang); [reflexivity|intros r; cbn [arrange]; rewrite E1, E2, E3, E4, E5, E6, E7, E8, E9; reflexivity]|].
  destruct (teqb w (lit "$") || teqb w (lit "@")) eqn:E10.
  { apply op_extract. intros r. cbn [arrange]. rewrite E1, E2, E3, E4, E5, E6, E7, E8, E9, E10. reflexivity. }
  destruct (binary w) as [o|] eqn:E11.
  - eapply op_one with (k := TOp o); [reflexivity|intros r; cbn [arrange]; rewrite E1, E2, E3, E4, E5, E6, E7, E8, E9, E10, E11; reflexivity].
  - apply op_none. intros r. cbn [arrange]. rewrite E1, E2, E3, E4, E5, E6, E7, E8, E9, E10, E11. reflexivity.
Qed.
Lemma cut_op : forall n V R x cx op hd w s pts,
  (forall V R x cx op hd pts, length V <= n -> ends_solid V -> Forall (small x) V -> clean R x pts ->
    arrange cx op hd (V ++ R) = Some pts -> cut cx op hd V R x pts) ->
  length V <= n -> ends_solid V -> Forall (small x) V -> clean R x pts -> fst s < x ->
  arrange cx op hd ((ROp, w, s) :: V ++ R) = Some pts -> cut cx op hd ((ROp, w, s) :: V) R x pts.
Proof.
  intros n V R x cx op hd w s pts IH L E FV CL Sx H.
  assert (Bad : forall k o (s2 : span) r t pts', R = (k, o, s2) :: r -> k <> RNl -> pts = (t, (fst s, snd s2)) :: pts' -> False).
  { intros k o s2 r t pts' -> K ->. destruct CL as [(? & ? & ? & CL)|[FR CL]]; [congruence|].
    inversion FR as [|? ? [G1 G2] _]. cbn [sp_of snd] in *. inversion CL as [|? ? [B|B] ?]; cbn [fst snd] in B; lia. }
  destruct (op_cases cx op hd w s) as [k cx1 op1 hd1 K A|A|cx' -> A|A].
  - rewrite A in H. apply cons_tok_some in H. destruct H as (pts' & H & ->).
    apply (cut_emit cx op hd cx1 op1 hd1 [(ROp, w, s)] V R x k s pts'); auto.
    + apply (IH V R x cx1 op1 hd1 pts' L E FV (clean_tail _ _ _ _ CL) H).
    + intros R' _. cbn [app]. apply A.
  - rewrite A in H. discriminate.
  - rewrite A in H. destruct V as [|[[k1 o] s1] V]; cbn [app] in H.
    + exfalso. destruct R as [|[[k1 o] s1] R]; [discriminate|]. destruct k1; try discriminate.
      destruct (teqb o (lit "]") && (snd s =? fst s1)); [|discriminate]. apply cons_tok_some in H. destruct H as (pts' & _ & ->).
      eapply Bad; [reflexivity|discriminate|reflexivity].
    + destruct k1; try discriminate. destruct (teqb o (lit "]") && (snd s =? fst s1)) eqn:G; [|discriminate].
      apply cons_tok_some in H. destruct H as (pts' & H & ->).
      apply (cut_emit _ op hd cx' true false [(ROp, w, s); (ROp, o, s1)] V R x _ (fst s, snd s1) pts'); auto.
      * apply IH; auto; [cbn [length] in L; lia|exact (ends_tail _ _ E)|inversion FV; assumption|exact (clean_tail _ _ _ _ CL)].
      * intros R' _. cbn [app]. rewrite A, G. reflexivity.
  - rewrite A in H. destruct V as [|[[k1 o] s1] V]; cbn [app] in H.
    + exfalso. destruct R as [|[[k1 o] s1] R]; [discriminate|]. destruct k1; try discriminate.
      apply cons_tok_some in H. destruct H as (pts' & _ & ->). eapply Bad; [reflexivity|discriminate|reflexivity].
    + destruct k1; try discriminate. apply cons_tok_some in H. destruct H as (pts' & H & ->).
      apply (cut_emit cx op hd cx true false [(ROp, w, s); (RWord, o, s1)] V R x _ (fst s, snd s1) pts'); auto.
      * apply IH; auto; [cbn [length] in L; lia|exact (ends_tail _ _ E)|inversion FV; assumption|exact (clean_tail _ _ _ _ CL)].
      * intros R' _. cbn [app]. rewrite A. reflexivity.
Qed.
Lemma arrange_cut : forall n V R x cx op hd pts, length V <= n -> ends_solid V ->
  Forall (small x) V -> clean R x pts ->
  arrange cx op hd (V ++ R) = Some pts -> cut cx op hd V R x pts.
Proof.
  induction n as [|n IH]; intros V R x cx op hd pts L E FV CL H.
  - destruct V; [|cbn in L; lia]. cbn [app] in H. exists [], pts, cx, op, hd. repeat split; auto.
    intros R' _. cbn [app]. destruct (arrange cx op hd R'); reflexivity.
  - destruct V as [|[[k w] s] V].
    { cbn [app] in H. exists [], pts, cx, op, hd. repeat split; auto. intros R' _. cbn [app]. destruct (arrange cx op hd R'); reflexivity. }
    assert (Sx : fst s < x) by (inversion FV as [|? ? [A B] ?]; cbn [sp_of snd] in *; lia).
    assert (Sx2 : snd s <= x) by (inversion FV as [|? ? [A B] ?]; cbn [sp_of snd] in *; lia).
    pose proof (ends_tail _ _ E) as E'. assert (FV' : Forall (small x) V) by (inversion FV; assumption).
    assert (L' : length V <= n) by (cbn [length] in L; lia).
    cbn [app] in H. destruct k.
    + exact (cut_word n V R x cx op hd w s pts IH L' E' FV' CL Sx H).
    + cbn [arrange] in H. apply cons_tok_some in H. destruct H as (pts' & H & ->).
      apply (cut_emit cx op hd cx true false [(RStr, w, s)] V R x _ s pts'); auto.
      apply (IH V R x cx true false pts' L' E' FV' (clean_tail _ _ _ _ CL) H).
    + exact (cut_op n V R x cx op hd w s pts IH L' E' FV' CL Sx H).
    + (* line break *)
      cbn [arrange] in H. destruct op.
      * assert (K : forall R', kept cx (after_breaks (V ++ R')) = kept cx (after_breaks (V ++ R))).
        { intros R'. f_equal. apply after_breaks_app. destruct E' as [E'|E']; [|exact E']. subst V. exfalso.
          destruct E as [E|(V0 & p & E & K)]; [discriminate|]. destruct V0 as [|? V0]; [injection E as <-; apply K; reflexivity|destruct V0; discriminate]. }
        destruct (kept cx (after_breaks (V ++ R))) as [[|]|] eqn:Kp; [| |discriminate].
        -- apply cons_tok_some in H. destruct H as (pts' & H & ->).
           apply (cut_emit cx true hd cx false hd [(RNl, w, s)] V R x TNl s pts'); auto.
           ++ apply (IH V R x cx false hd pts' L' E' FV' (clean_tail _ _ _ _ CL) H).
           ++ intros R' _. cbn [app arrange]. rewrite (K R'). reflexivity.
        -- apply cut_drop; [apply (IH V R x cx true hd pts L' E' FV' CL H)|]. intros R' _. cbn [app arrange]. rewrite (K R'). reflexivity.
      * apply cut_drop; [apply (IH V R x cx false hd pts L' E' FV' CL H)|]. intros R' _. reflexivity.
    + apply cut_drop; [apply (IH V R x cx op hd pts L' E' FV' CL H)|]. intros R' _. reflexivity.
    + apply cut_drop; [apply (IH V R x cx op hd pts L' E' FV' CL H)|]. intros R' _. reflexivity.
Qed.

(** ** The state after an expression, and before a node *)
Definition flows (cx : list opened) (l : list tok) : Prop := forall op, exists op', after_toks (cx, op, false) l = Some (cx, op', false).
Lemma flows_sep : forall cx l, Forall (flows cx) l -> flows cx (sep [TComma] l).
Proof.
  intros cx l F. induction F as [|x l Fx F IH]; intros op; [exists op; reflexivity|].
  destruct l as [|y l]; [exact (Fx op)|]. rewrite sep_cons2, after_toks_app. destruct (Fx op) as (op1 & ->).
  rewrite after_toks_app. cbn [after_toks after_tok]. exact (IH false).
Qed.
Lemma name_flows : forall cx n, flows cx (name_toks n).
Proof. intros cx [x|] op; eexists; reflexivity. Qed.
Lemma toks_state : forall e cx op, after_toks (cx, op, false) (toks e) = Some (cx, true, false).
Proof.
  induction e using expr_ind2; intros cx op; cbn [toks].
  - reflexivity.
  - cbn [after_toks after_tok]. rewrite after_toks_app, IHe. reflexivity.
  - destruct u; cbn [utok after_toks after_tok]; apply IHe.
  - rewrite after_toks_app, IHe1. destruct nl; cbn [app after_toks after_tok]; apply IHe2.
  - rewrite after_toks_app, IHe. cbn [after_toks after_tok]. rewrite after_toks_app.
    match goal with |- context [sep _ ?l] => assert (F : flows (OParen false :: cx) (sep [TComma] l)) end.
    { apply flows_sep. rewrite Forall_forall in *. intros x I. apply in_map_iff in I. destruct I as ([n v] & <- & I).
      specialize (H _ I). cbn [fst snd] in *. intros o. rewrite after_toks_app. destruct (name_flows (OParen false :: cx) n o) as (o1 & ->).
      destruct v as [v|]; [eexists; apply H|eexists; reflexivity]. }
    destruct (F false) as (o & ->). reflexivity.
  - rewrite after_toks_app, IHe. cbn [after_toks after_tok]. rewrite after_toks_app.
    match goal with |- context [sep _ ?l] => assert (F : flows (OBracket d :: cx) (sep [TComma] l)) end.
    { apply flows_sep. rewrite Forall_forall in *. intros x I. apply in_map_iff in I. destruct I as ([n v] & <- & I).
      specialize (H _ I). cbn [fst snd] in *. intros o. rewrite after_toks_app. destruct (name_flows (OBracket d :: cx) n o) as (o1 & ->).
      destruct v as [v|]; [eexists; apply H|eexists; reflexivity]. }
    destruct (F false) as (o & ->). reflexivity.
  - rewrite after_toks_app, IHe. reflexivity.
  - cbn [after_toks after_tok]. rewrite after_toks_app, IHe1. cbn [after_toks after_tok negb]. rewrite after_toks_app, IHe2.
    destruct el as [e|]; [cbn [after_toks after_tok]; apply H|reflexivity].
  - cbn [after_toks after_tok]. rewrite after_toks_app.
    match goal with |- context [sep _ ?l] => assert (F : flows (OParen true :: cx) (sep [TComma] l)) end.
    { apply flows_sep. rewrite Forall_forall in *. intros x I. apply in_map_iff in I. destruct I as ([n v] & <- & I).
      specialize (H _ I). cbn [fst snd] in *. intros o. destruct v as [v|]; cbn [after_toks after_tok]; [eexists; apply H|eexists; reflexivity]. }
    destruct (F false) as (o & ->). cbn [after_toks after_tok negb]. apply IHe.
  - cbn [after_toks after_tok]. rewrite after_toks_app, IHe1. cbn [after_toks after_tok negb]. apply IHe2.
  - cbn [after_toks after_tok]. rewrite after_toks_app, IHe1. cbn [after_toks after_tok negb]. apply IHe2.
  - cbn [after_toks after_tok]. apply IHe.
  - cbn [after_toks after_tok]. rewrite after_toks_app.
    assert (F : exists o, after_toks (OBrace :: cx, false, false) (sep [TNl] (map toks es)) = Some (OBrace :: cx, o, false)).
    { clear -H. generalize false at 1. induction H as [|e es He F IH]; intros b; [exists b; reflexivity|]. cbn [map].
      destruct es as [|e2 es]; [cbn [map sep]; eexists; apply He|]. cbn [map] in *. rewrite sep_cons2, after_toks_app, He, after_toks_app.
      cbn [after_toks after_tok]. apply IH. }
    destruct F as (o & ->). reflexivity.
Qed.
Lemma args_before_state : forall cx (pre : list arg) n, after_toks (cx, false, false) (sep_before [TComma] (map arg_toks pre) ++ name_toks n) = Some (cx, false, false).
Proof.
  intros cx pre n. rewrite after_toks_app.
  assert (E : after_toks (cx, false, false) (sep_before [TComma] (map arg_toks pre)) = Some (cx, false, false)).
  { induction pre as [|[m v] pre IH]; [reflexivity|]. unfold sep_before in *. cbn [map concat]. rewrite !after_toks_app. unfold arg_toks at 1. cbn [fst snd].
    rewrite after_toks_app. destruct (name_flows cx m false) as (o & ->).
    destruct v as [v|]; cbn [opt_toks after_toks]; rewrite ?toks_state; cbn [after_toks after_tok]; apply IH. }
  rewrite E. destruct n; reflexivity.
Qed.
Lemma params_before_state : forall cx (pre : list param), after_toks (cx, false, false) (sep_before [TComma] (map param_toks pre)) = Some (cx, false, false).
Proof.
  intros cx pre. induction pre as [|[m v] pre IH]; [reflexivity|]. unfold sep_before in *. cbn [map concat]. rewrite !after_toks_app. unfold param_toks at 1. cbn [fst snd].
  destruct v as [v|]; cbn [after_toks after_tok]; rewrite ?toks_state; cbn [after_toks after_tok]; apply IH.
Qed.
Lemma params_state : forall cx (ps : list param), exists o, after_toks (cx, false, false) (params_toks ps) = Some (cx, o, false).
Proof.
  intros cx ps. unfold params_toks. apply (flows_sep cx). rewrite Forall_forall. intros x I. apply in_map_iff in I. destruct I as ([n v] & <- & I).
  intros o. unfold param_toks. cbn [fst snd]. destruct v as [v|]; cbn [after_toks after_tok]; [eexists; apply toks_state|eexists; reflexivity].
Qed.
Lemma stmts_before_state : forall cx (pre : list expr), after_toks (cx, false, false) (sep_before [TNl] (map toks pre)) = Some (cx, false, false).
Proof.
  intros cx pre. induction pre as [|e pre IH]; [reflexivity|]. unfold sep_before in *. cbn [map concat]. rewrite !after_toks_app, toks_state.
  cbn [after_toks after_tok]. exact IH.
Qed.
Lemma frame_state : forall f cx, exists cx', after_toks (cx, false, false) (frame_pre f) = Some (cx', false, false) /\
  (frame_pre f = [] /\ cx' = cx \/ (exists m k, frame_pre f = m ++ [k] /\ k <> TNl) \/ cx' = OBrace :: cx).
Proof.
  intros f cx.
  assert (Last : forall cx' m k, k <> TNl -> frame_pre f = m ++ [k] -> after_toks (cx, false, false) (frame_pre f) = Some (cx', false, false) ->
    exists cx', after_toks (cx, false, false) (frame_pre f) = Some (cx', false, false) /\
    (frame_pre f = [] /\ cx' = cx \/ (exists m k, frame_pre f = m ++ [k] /\ k <> TNl) \/ cx' = OBrace :: cx)).
  { intros cx' m k K E A. exists cx'. split; [exact A|]. right; left. eauto. }
  destruct f; cbn [frame_pre] in *; try (exists cx; split; [reflexivity|left; split; reflexivity]).
  - apply (Last (OParen false :: cx) [] TLp); [discriminate|reflexivity|reflexivity].
  - apply (Last cx [] (utok u)); [destruct u; discriminate|reflexivity|destruct u; reflexivity].
  - apply (Last cx (toks l ++ (if nl then [TNl] else [])) (TOp o)); [discriminate|rewrite <- app_assoc; reflexivity|].
    rewrite after_toks_app, toks_state. destruct nl; reflexivity.
  - assert (A : after_toks (cx, false, false) (toks f ++ TLp :: sep_before [TComma] (map arg_toks pre) ++ name_toks n) = Some (OParen false :: cx, false, false)).
    { rewrite after_toks_app, toks_state. cbn [after_toks after_tok]. apply args_before_state. }
    destruct n as [x|].
    + apply (Last (OParen false :: cx) (toks f ++ TLp :: sep_before [TComma] (map arg_toks pre) ++ [TAtom (AId x)]) TEq); [discriminate| |exact A].
      cbn [name_toks]. rewrite <- !app_assoc. cbn [app]. rewrite <- !app_assoc. reflexivity.
    + cbn [name_toks] in *. rewrite app_nil_r in *. destruct pre as [|a pre] using rev_ind.
      * apply (Last (OParen false :: cx) (toks f) TLp); [discriminate|reflexivity|exact A].
      * apply (Last (OParen false :: cx) (toks f ++ TLp :: sep_before [TComma] (map arg_toks pre) ++ arg_toks a) TComma); [discriminate| |exact A].
        unfold sep_before. rewrite map_app, map_app, concat_app. cbn [map concat]. rewrite app_nil_r, <- !app_assoc. cbn [app]. rewrite <- !app_assoc. reflexivity.
  - assert (A : after_toks (cx, false, false) (toks x ++ TLb d :: sep_before [TComma] (map arg_toks pre) ++ name_toks n) = Some (OBracket d :: cx, false, false)).
    { rewrite after_toks_app, toks_state. cbn [after_toks after_tok]. apply args_before_state. }
    destruct n as [x0|].
    + apply (Last (OBracket d :: cx) (toks x ++ TLb d :: sep_before [TComma] (map arg_toks pre) ++ [TAtom (AId x0)]) TEq); [discriminate| |exact A].
      cbn [name_toks]. rewrite <- !app_assoc. cbn [app]. rewrite <- !app_assoc. reflexivity.
    + cbn [name_toks] in *. rewrite app_nil_r in *. destruct pre as [|a pre] using rev_ind.
      * apply (Last (OBracket d :: cx) (toks x) (TLb d)); [discriminate|reflexivity|exact A].
      * apply (Last (OBracket d :: cx) (toks x ++ TLb d :: sep_before [TComma] (map arg_toks pre) ++ arg_toks a) TComma); [discriminate| |exact A].
        unfold sep_before. rewrite map_app, map_app, concat_app. cbn [map concat]. rewrite app_nil_r, <- !app_assoc. cbn [app]. rewrite <- !app_assoc. reflexivity.
  - apply (Last (OParen true :: cx) [TIf] TLp); [discriminate|reflexivity|reflexivity].
  - apply (Last cx (TIf :: TLp :: toks c) TRp); [discriminate|reflexivity|]. cbn [after_toks after_tok]. rewrite after_toks_app, toks_state. reflexivity.
  - apply (Last cx (TIf :: TLp :: toks c ++ TRp :: toks t) TElse); [discriminate|cbn [app]; rewrite <- app_assoc; reflexivity|].
    cbn [after_toks after_tok]. rewrite after_toks_app, toks_state. cbn [after_toks after_tok negb]. rewrite after_toks_app, toks_state. reflexivity.
  - apply (Last (OParen true :: cx) (TFun :: TLp :: sep_before [TComma] (map param_toks pre) ++ [TAtom (AId n)]) TEq);
      [discriminate|cbn [app]; rewrite <- app_assoc; reflexivity|].
    cbn [after_toks after_tok]. rewrite after_toks_app, params_before_state. reflexivity.
  - apply (Last cx (TFun :: TLp :: params_toks ps) TRp); [discriminate|reflexivity|]. cbn [after_toks after_tok]. rewrite after_toks_app.
    destruct (params_state (OParen true :: cx) ps) as (o & ->). reflexivity.
  - apply (Last (OParen true :: cx) [TFor; TLp; TAtom (AId v)] TIn); [discriminate|reflexivity|reflexivity].
  - apply (Last cx (TFor :: TLp :: TAtom (AId v) :: TIn :: toks s) TRp); [discriminate|reflexivity|]. cbn [after_toks after_tok]. rewrite after_toks_app, toks_state. reflexivity.
  - apply (Last (OParen true :: cx) [TWhile] TLp); [discriminate|reflexivity|reflexivity].
  - apply (Last cx (TWhile :: TLp :: toks c) TRp); [discriminate|reflexivity|]. cbn [after_toks after_tok]. rewrite after_toks_app, toks_state. reflexivity.
  - apply (Last cx [] TRepeat); [discriminate|reflexivity|reflexivity].
  - exists (OBrace :: cx). split; [|right; right; reflexivity]. cbn [after_toks after_tok]. apply stmts_before_state.
Qed.
Lemma before_state : forall pre fs, exists cx,
  after_toks ([], false, false) (sep_before [TNl] (map toks pre) ++ pre_toks fs) = Some (cx, false, false) /\
  forall l, sep_before [TNl] (map toks pre) ++ pre_toks fs = l ++ [TNl] -> ignoring cx = false.
Proof.
  intros pre fs. induction fs as [|f fs IH]; cbn [pre_toks].
  - exists []. rewrite app_nil_r. split; [apply stmts_before_state|]. intros; reflexivity.
  - destruct IH as (cx & A & B). rewrite app_assoc, after_toks_app, A. destruct (frame_state f cx) as (cx' & C & [[D ->]|[(m & k & D & K)| ->]]).
    + rewrite D in *. exists cx. split; [exact C|]. rewrite app_nil_r. exact B.
    + exists cx'. split; [exact C|]. intros l E. rewrite D, app_assoc in E. apply app_inj_tail in E. destruct E as [_ E]. congruence.
    + exists (OBrace :: cx). split; [exact C|]. reflexivity.
Qed.

(** ** A text read in the middle of another *)
Definition weight (o : opened) : nat := match o with OBracket true => 2 | _ => 1 end.
Definition depth (cx : list opened) : nat := fold_right (fun o d => weight o + d) 0 cx.
Definition inside (c0 cx : list opened) (op op1 hd : bool) (V : list placed) (pts : list ptok) : Prop :=
  forall R', no_colons R' -> exists op' hd', after_toks (c0 ++ cx, op1, hd) (map fst pts) = Some (cx, op', hd') /\
    arrange (c0 ++ cx) op1 hd (V ++ R') = option_map (app pts) (arrange cx op' hd' R').
Lemma inside_emit : forall c0 c1 cx op op1 hd op2 hd2 V1 V k s pts, inside c1 cx op2 op2 hd2 V pts ->
  after_tok (c0 ++ cx, op1, hd) k = Some (c1 ++ cx, op2, hd2) ->
  (forall R', no_colons R' -> arrange (c0 ++ cx) op1 hd (V1 ++ V ++ R') = cons_tok k s (arrange (c1 ++ cx) op2 hd2 (V ++ R'))) ->
  inside c0 cx op op1 hd (V1 ++ V) ((k, s) :: pts).
Proof.
  intros c0 c1 cx op op1 hd op2 hd2 V1 V k s pts I K A R' N. destruct (I R' N) as (op' & hd' & T & E). exists op', hd'.
  cbn [map fst after_toks]. rewrite K. split; [exact T|]. rewrite <- app_assoc, (A R' N), E. exact (map_map_app (k, s) pts _).
Qed.
Lemma kept_inside : forall o c cx n, kept ((o :: c) ++ cx) n = kept (o :: c) n.
Proof. intros o c cx n. unfold kept. destruct o; reflexivity. Qed.
Lemma only_breaks : forall V c0 op hd, after_breaks V = None -> c0 <> [] -> Forall (fun p => kind p <> RSpace /\ kind p <> RComment) V -> arrange c0 op hd V = None.
Proof.
  induction V as [|[[k w] s] V IH]; intros c0 op hd H N F; [destruct c0; [congruence|reflexivity]|].
  destruct k; try discriminate. cbn [after_breaks] in H. inversion F as [|? ? _ F']. cbn [arrange].
  destruct op; [|apply IH; auto]. rewrite H. destruct c0 as [|o c0]; [congruence|]. destruct o; cbn [kept ignoring]; apply IH; auto; discriminate.
Qed.
Lemma after_breaks_some : forall V R, after_breaks V <> None -> after_breaks (V ++ R) = after_breaks V.
Proof. induction V as [|[[k w] s] V IH]; intros R H; [contradiction H; reflexivity|]. destruct k; try reflexivity. cbn [app after_breaks] in *. apply IH, H. Qed.
Lemma ns_app : forall V R' pts c0 op hd, arrange c0 op hd V = Some pts -> no_colons R' -> ns_of V = None -> ns_of (V ++ R') = None.
Proof.
  intros [|p1 [|p2 V]] R' pts c0 op hd H N E.
  - apply ns_none, N.
  - apply colons_fail in H. apply (ns_none (p1 :: R')). destruct p1 as [[k1 o] s1]. destruct k1; exact H || exact Logic.I.
  - destruct p1 as [[k1 o] s1], p2 as [[k2 m] s2]. destruct k1; try reflexivity. destruct k2; try reflexivity. cbn [app ns_of] in *.
    destruct (teqb o (lit "::")); [discriminate|]. destruct (teqb o (lit ":::")); [discriminate|reflexivity].
Qed.
Lemma in_context : forall n V c0 cx op op1 hd pts, length V <= n -> Forall (fun p => kind p <> RSpace /\ kind p <> RComment) V ->
  bare_break (depth c0) (map fst V) = false -> c0 = [] \/ op1 = op -> arrange c0 op hd V = Some pts -> inside c0 cx op op1 hd V pts.
Proof.
  induction n as [|n IH]; intros V c0 cx op op1 hd pts L FV B O H.
  - destruct V; [|cbn in L; lia]. destruct c0; [|discriminate]. injection H as <-. intros R' _. exists op1, hd. split; [reflexivity|].
    cbn [app]. destruct (arrange cx op1 hd R'); reflexivity.
  - destruct V as [|[[k w] s] V].
    { destruct c0; [|discriminate]. injection H as <-. intros R' _. exists op1, hd. split; [reflexivity|].
      cbn [app]. destruct (arrange cx op1 hd R'); reflexivity. }
    assert (L' : length V <= n) by (cbn [length] in L; lia). assert (FV' : Forall (fun p => kind p <> RSpace /\ kind p <> RComment) V) by (inversion FV; assumption).
    destruct k.
    + rewrite arrange_word in H. cbn [map fst bare_break] in B.
      destruct (is_name w) eqn:Nm; [|apply cons_tok_some in H; destruct H as (pts' & H & ->);
        apply (inside_emit c0 c0 cx op op1 hd (word_op w) (word_hd w) [(RWord, w, s)] V _ s pts'); [apply (IH V c0 cx _ _ _ pts'); auto|apply word_after|
          intros R' C; cbn [app]; rewrite arrange_word, Nm; reflexivity]].
      destruct (ns_of V) as [[[[i m] s2] r']|] eqn:N.
      * apply cons_tok_some in H. destruct H as (pts' & H & ->).
        destruct V as [|[[k1 o] s1] [|[[k2 m2] s3] V]]; try discriminate; destruct k1; try discriminate. destruct k2; try discriminate.
        assert (N' : forall R', ns_of (((ROp, o, s1) :: (RWord, m2, s3) :: V) ++ R') = Some (i, m, s2, V ++ R') /\ r' = V /\ exists q, (o = lit "::" \/ o = lit ":::") /\ q = 0).
        { intros R'. cbn [app ns_of] in *. destruct (teqb o (lit "::")) eqn:E1; [injection N as <- <- <- <-; apply teqb_eq in E1; repeat split; eauto|].
          destruct (teqb o (lit ":::")) eqn:E2; [injection N as <- <- <- <-; apply teqb_eq in E2; repeat split; eauto|discriminate]. }
        destruct (N' []) as (_ & -> & q & Eo & _).
        apply (inside_emit c0 c0 cx op op1 hd true false [(RWord, w, s); (ROp, o, s1); (RWord, m2, s3)] V _ (fst s, snd s2) pts').
        -- apply (IH V c0 cx true true false pts'); auto; [cbn [length] in L; lia|inversion FV' as [|? ? _ F1]; inversion F1; assumption|].
           cbn [map fst bare_break] in B. destruct Eo as [-> | ->]; exact B.
        -- reflexivity.
        -- intros R' _. cbn [app]. rewrite arrange_word. change ((ROp, o, s1) :: (RWord, m2, s3) :: V ++ R') with (((ROp, o, s1) :: (RWord, m2, s3) :: V) ++ R').
           rewrite Nm, (proj1 (N' R')). reflexivity.
      * apply cons_tok_some in H. destruct H as (pts' & H & ->).
        apply (inside_emit c0 c0 cx op op1 hd (word_op w) (word_hd w) [(RWord, w, s)] V _ s pts').
        -- apply (IH V c0 cx _ _ _ pts'); auto.
        -- apply word_after.
        -- intros R' C. cbn [app]. rewrite arrange_word, Nm, (ns_app V R' pts' _ _ _ H C N). reflexivity.
    + cbn [arrange] in H. apply cons_tok_some in H. destruct H as (pts' & H & ->).
      apply (inside_emit c0 c0 cx op op1 hd true false [(RStr, w, s)] V _ s pts'); [|reflexivity|intros; reflexivity].
      apply (IH V c0 cx true true false pts'); auto.
    + cbn [map fst bare_break existsb] in B. cbn [arrange] in H.
      assert (One : forall c1 k op2 hd2 d', after_tok (c0 ++ cx, op1, hd) k = Some (c1 ++ cx, op2, hd2) -> cons_tok k s (arrange c1 op2 hd2 V) = Some pts ->
        bare_break d' (map fst V) = false -> d' = depth c1 -> (forall R', arrange (c0 ++ cx) op1 hd ((ROp, w, s) :: V ++ R') = cons_tok k s (arrange (c1 ++ cx) op2 hd2 (V ++ R'))) ->
        inside c0 cx op op1 hd ((ROp, w, s) :: V) pts).
      { intros c1 k op2 hd2 d' K H1 B1 -> A. apply cons_tok_some in H1. destruct H1 as (pts' & H1 & ->).
        apply (inside_emit c0 c1 cx op op1 hd op2 hd2 [(ROp, w, s)] V k s pts'); [|exact K|intros R' _; exact (A R')].
        apply (IH V c1 cx op2 op2 hd2 pts'); auto. }
      destruct (teqb w (lit "(")) eqn:E1.
      { apply (One (OParen hd :: c0) TLp false false (1 + depth c0)); [reflexivity|exact H|exact B|reflexivity|]. intros R'. cbn [arrange]. rewrite E1. reflexivity. }
      destruct (teqb w (lit ")")) eqn:E2.
      { destruct c0 as [|[h|d|] c0]; try discriminate. apply teqb_eq in E2. subst w. eapply (One c0 TRp (negb h) false); [reflexivity|exact H|exact B|unfold depth; cbn [fold_right weight]; lia|]. reflexivity. }
      destruct (teqb w (lit "[")) eqn:E3.
      { apply (One (OBracket false :: c0) (TLb false) false false (1 + depth c0)); [reflexivity|exact H|exact B|reflexivity|]. intros R'. cbn [arrange]. rewrite E1, E2, E3. reflexivity. }
      destruct (teqb w (lit "[[")) eqn:E4.
      { apply teqb_eq in E4. subst w. eapply (One (OBracket true :: c0) (TLb true) false false); [reflexivity|exact H|exact B|reflexivity|]. reflexivity. }
      destruct (teqb w (lit "]")) eqn:E5.
      { apply teqb_eq in E5. subst w. destruct c0 as [|[h|d|] c0]; try discriminate. destruct d.
        - destruct V as [|[[k2 w2] s2] V]; try discriminate. destruct k2; try discriminate.
          destruct (teqb w2 (lit "]") && (snd s =? fst s2)) eqn:G; [|discriminate]. apply cons_tok_some in H. destruct H as (pts' & H & ->).
          apply (inside_emit (OBracket true :: c0) c0 cx op op1 hd true false [(ROp, lit "]", s); (ROp, w2, s2)] V (TRb true) (fst s, snd s2) pts').
          + apply (IH V c0 cx true true false pts'); auto; [cbn [length] in L; lia|inversion FV'; assumption|].
            apply andb_prop in G. destruct G as [G _]. apply teqb_eq in G. subst w2.
            change (bare_break (depth (OBracket true :: c0) - 1 - 1) (map fst V) = false) in B. cbn [depth fold_right weight] in B.
            replace (2 + fold_right (fun o d => weight o + d) 0 c0 - 1 - 1) with (depth c0) in B by (unfold depth; lia). exact B.
          + reflexivity.
          + intros R' _. change (arrange ((OBracket true :: c0) ++ cx) op1 hd ([(ROp, lit "]", s); (ROp, w2, s2)] ++ V ++ R')) with
              (if teqb w2 (lit "]") && (snd s =? fst s2) then cons_tok (TRb true) (fst s, snd s2) (arrange (c0 ++ cx) true false (V ++ R')) else None).
            rewrite G. reflexivity.
        - eapply (One c0 (TRb false) true false); [reflexivity|exact H|exact B|unfold depth; cbn [fold_right weight]; lia|]. reflexivity. }
      destruct (teqb w (lit "{")) eqn:E6.
      { apply teqb_eq in E6. subst w. eapply (One (OBrace :: c0) TLc false false); [reflexivity|exact H|exact B|reflexivity|]. reflexivity. }
      destruct (teqb w (lit "}")) eqn:E7.
      { apply teqb_eq in E7. subst w. destruct c0 as [|[h|d|] c0]; try discriminate. eapply (One c0 TRc true false); [reflexivity|exact H|exact B|unfold depth; cbn [fold_right weight]; lia|]. reflexivity. }
      cbn [orb] in B.
      destruct (teqb w (lit ",")) eqn:E8.
      { eapply (One c0 TComma false false); [reflexivity|exact H|exact B|reflexivity|]. intros R'. cbn [arrange]. rewrite E1, E2, E3, E4, E5, E6, E7, E8. reflexivity. }
      destruct (teqb w (lit "!")) eqn:E9.
      { eapply (One c0 TBang false false); [reflexivity|exact H|exact B|reflexivity|]. intros R'. cbn [arrange]. rewrite E1, E2, E3, E4, E5, E6, E7, E8, E9. reflexivity. }
      destruct (teqb w (lit "$") || teqb w (lit "@")) eqn:E10.
      { destruct V as [|[[k2 w2] s2] V]; try discriminate. destruct k2; try discriminate. apply cons_tok_some in H. destruct H as (pts' & H & ->).
        apply (inside_emit c0 c0 cx op op1 hd true false [(ROp, w, s); (RWord, w2, s2)] V (TExtract w w2) (fst s, snd s2) pts'); [|reflexivity|].
        - apply (IH V c0 cx true true false pts'); auto; [cbn [length] in L; lia|inversion FV'; assumption].
        - intros R' _. cbn [app arrange]. rewrite E1, E2, E3, E4, E5, E6, E7, E8, E9, E10. reflexivity. }
      destruct (binary w) as [o|] eqn:E11; [|discriminate].
      eapply (One c0 (TOp o) false false); [reflexivity|exact H|exact B|reflexivity|]. intros R'. cbn [arrange].
      rewrite E1, E2, E3, E4, E5, E6, E7, E8, E9, E10, E11. reflexivity.
    + cbn [map fst bare_break] in B. apply orb_false_iff in B. destruct B as [Z B].
      destruct c0 as [|o c0]; [discriminate|]. destruct O as [O| ->]; [discriminate|]. cbn [arrange] in H. destruct op.
      * assert (AB : after_breaks V <> None \/ (forall o1 h1, arrange (o :: c0) o1 h1 V = None)).
        { destruct (after_breaks V) eqn:X; [left; discriminate|right; intros; apply only_breaks; auto; discriminate]. }
        destruct AB as [AB|AB]; [|exfalso; destruct (kept (o :: c0) (after_breaks V)) as [[|]|]; rewrite ?AB in H; discriminate].
        destruct (kept (o :: c0) (after_breaks V)) as [[|]|] eqn:Kp; [| |discriminate].
        -- apply cons_tok_some in H. destruct H as (pts' & H & ->).
           apply (inside_emit (o :: c0) (o :: c0) cx true true hd false hd [(RNl, w, s)] V TNl s pts'); [|reflexivity|].
           ++ apply (IH V (o :: c0) cx false false hd pts'); auto.
           ++ intros R' _. cbn [app]. change (o :: c0 ++ cx) with ((o :: c0) ++ cx). cbn [arrange]. rewrite kept_inside, after_breaks_some, Kp; [reflexivity|exact AB].
        -- intros R' C. destruct (IH V (o :: c0) cx true true hd pts L' FV' B (or_intror eq_refl) H R' C) as (op' & hd' & T & E). exists op', hd'. split; [exact T|].
           rewrite <- E. cbn [app]. change (o :: c0 ++ cx) with ((o :: c0) ++ cx). cbn [arrange]. rewrite kept_inside, after_breaks_some, Kp; [reflexivity|exact AB].
      * intros R' C. destruct (IH V (o :: c0) cx false false hd pts L' FV' B (or_intror eq_refl) H R' C) as (op' & hd' & T & E). exists op', hd'. split; [exact T|].
        rewrite <- E. reflexivity.
    + destruct (Forall_inv FV) as [_ X]. exfalso. apply X. reflexivity.
    + destruct (Forall_inv FV) as [X _]. exfalso. apply X. reflexivity.
Qed.
