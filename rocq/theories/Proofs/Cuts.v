(** Where R cuts a text: at the ends of a new piece of code that starts and ends as the old one. *)
From Coq Require Import Sorting.Sorted.
From Verif Require Import Spec.RText Proofs.TextProofs Proofs.RParse Proofs.RContext Proofs.CommentProofs Proofs.LocalText Proofs.ReplaceText.

Lemma run_app : forall a st b, lex_run st (a ++ b) =
  (fst (lex_run st a) ++ fst (lex_run (snd (lex_run st a)) b), snd (lex_run (snd (lex_run st a)) b)).
Proof.
  induction a as [|c a IH]; intros st b.
  - cbn [app lex_run fst snd]. destruct (lex_run st b). reflexivity.
  - cbn [app lex_run]. destruct (lex_step st c) as [o st1]. rewrite IH. destruct (lex_run st1 a) as [oa st2]. cbn [fst snd].
    destruct (lex_run st2 b) as [ob st3]. cbn [fst snd]. rewrite app_assoc. reflexivity.
Qed.
Lemma full_app : forall a st b, full st (a ++ b) = option_map (app (fst (lex_run st a))) (full (snd (lex_run st a)) b).
Proof.
  intros a st b. unfold full. rewrite run_app. destruct (lex_run st a) as [oa st2]. cbn [fst snd]. destruct (lex_run st2 b) as [ob st3]. cbn [fst snd].
  destruct (lex_end st3); [|reflexivity]. cbn [option_map]. rewrite app_assoc. reflexivity.
Qed.
Lemma full_pieces : forall t, pieces t = full LIdle t.
Proof. reflexivity. Qed.

(** The first piece goes on from what is held. *)
Lemma head_prefix : forall r st q ps, st <> LIdle -> full st r = Some (q :: ps) -> exists v, snd q = held st ++ v.
Proof.
  induction r as [|c r IH]; intros st q ps N H.
  - rewrite full_nil in H. exists []. rewrite app_nil_r. destruct st; try discriminate; injection H as <- _; reflexivity.
  - rewrite full_cons in H. pose proof (step_flat st c) as F. destruct (how_step st c) as [st1 E X|p E X Y|p E]; rewrite E in *; cbn [fst snd] in *.
    + destruct (full st1 r) as [l|] eqn:G; [|discriminate]. injection H as ->. destruct (IH st1 q ps X G) as (v & ->).
      assert (B : st1 <> LBad) by (intros ->; rewrite full_bad in G; discriminate). specialize (F B). cbn in F. rewrite F, <- app_assoc. eauto.
    + destruct (full (snd (start_piece c)) r) as [l|] eqn:G; [|discriminate]. injection H as <- _. exists []. rewrite app_nil_r.
      destruct st; try discriminate; injection X as <-; reflexivity.
    + destruct (full LIdle r) as [l|]; [|discriminate]. injection H as <- _. assert (B : LIdle <> LBad) by discriminate. specialize (F B).
      unfold flat in F. cbn [map concat held] in F. rewrite !app_nil_r in F. rewrite F. eauto.
Qed.

(** The character ends the piece that is being read. *)
Definition stops (st : lstate) (c : char) : Prop :=
  st = LIdle \/ exists p, lex_step st c = (p :: fst (start_piece c), snd (start_piece c)) /\ lex_end st = Some [p].
Lemma apart_stops : forall a c r, apart a (c :: r) -> stops (snd (lex_run LIdle a)) c.
Proof.
  intros a c r (pa & pb & A & B & H). rewrite full_pieces in *. rewrite full_app in H. rewrite <- (app_nil_r a), full_app, full_nil in A.
  destruct (lex_run LIdle a) as [oa st] eqn:Ra. cbn [fst snd] in *.
  destruct (lex_end st) as [la|] eqn:La; [|discriminate]. cbn [option_map] in A. injection A as <-.
  destruct (full st (c :: r)) as [l|] eqn:Fl; [|discriminate]. cbn [option_map] in H. injection H as H. rewrite <- app_assoc in H. apply app_inv_head in H. subst l.
  destruct (how_step st c) as [st1 E X|p E X Y|p E].
  - destruct st; try (left; reflexivity); try discriminate; exfalso; cbn [lex_end] in La; injection La as <-;
      rewrite full_cons, E in Fl; cbn [fst snd option_map] in Fl; (destruct (full st1 r) as [l|] eqn:G; [|discriminate]); cbn [option_map app] in Fl; injection Fl as ->;
      (destruct (head_prefix _ _ _ _ X G) as (v & Ev)); 
      (assert (NB : st1 <> LBad) by (intros ->; rewrite full_bad in G; discriminate));
      match type of E with lex_step ?s _ = _ => pose proof (step_flat s c) as F end; rewrite E in F; specialize (F NB); cbn in F, Ev; rewrite F in Ev;
      apply (f_equal (@length _)) in Ev; rewrite !app_length in Ev; cbn in Ev; lia.
  - right. exists p. auto.
  - destruct st; try (left; reflexivity); exfalso; try discriminate; cbn [lex_end] in La; injection La as <-;
      rewrite full_cons, E in Fl; cbn [fst snd option_map] in Fl; (destruct (full LIdle r) as [l|] eqn:G; [|discriminate]); cbn [option_map app] in Fl; injection Fl as -> _;
      match type of E with lex_step ?s _ = _ => pose proof (step_flat s c) as F end; rewrite E in F; 
      (assert (NB : LIdle <> LBad) by discriminate); specialize (F NB); unfold flat in F; cbn [map concat held snd] in F; rewrite !app_nil_r in F;
      apply (f_equal (@length _)) in F; rewrite app_length in F; cbn in F; lia.
Qed.
Lemma stops_apart : forall a c r pa pb, pieces a = Some pa -> pieces (c :: r) = Some pb -> stops (snd (lex_run LIdle a)) c ->
  pieces (a ++ c :: r) = Some (pa ++ pb).
Proof.
  intros a c r pa pb A B H. rewrite full_pieces in *. rewrite full_app. rewrite <- (app_nil_r a), full_app, full_nil in A.
  destruct (lex_run LIdle a) as [oa st]. cbn [fst snd] in *. destruct H as [->|(p & E & L)].
  - cbn [lex_end option_map] in A. injection A as <-. rewrite B. cbn [option_map]. rewrite app_nil_r. reflexivity.
  - rewrite L in A. cbn [option_map] in A. injection A as <-. rewrite full_cons, E. rewrite full_cons in B. cbn [lex_step fst snd] in *.
    destruct (full (snd (start_piece c)) r) as [l|]; [|discriminate]. cbn [option_map] in *. injection B as <-. rewrite <- app_assoc. reflexivity.
Qed.

Lemma word_not_space : forall c, word_start c = true -> space_char c = false /\ ceqb c 10%N = false /\ forall w, is_long (w ++ [c]) = false.
Proof.
  intros c H.
  assert (D : forall n, word_start n = false -> ceqb c n = false).
  { intros n Hn. destruct (ceqb c n) eqn:E; [|reflexivity]. apply N.eqb_eq in E. subst. congruence. }
  split; [unfold space_char; rewrite !D by reflexivity; reflexivity|]. split; [apply D; reflexivity|].
  intros w. unfold is_long. apply Bool.not_true_is_false. intros E. apply existsb_exists in E. destruct E as (o & I & E). apply teqb_eq in E.
  assert (L : exists w0 d, o = w0 ++ [d] /\ word_start d = false).
  { cbv [long_ops In] in I. 
    repeat (destruct I as [<-|I]; [match goal with |- exists w0 d, ?o = _ /\ _ => let o' := eval vm_compute in o in
      let l := eval vm_compute in (removelast o') in let z := eval vm_compute in (last o' 0%N) in exists l, z; split; reflexivity end|]). contradiction. }
  destruct L as (w0 & d & -> & Hd). apply app_inj_tail in E. destruct E as [_ ->]. congruence.
Qed.
(** A word can start where another word starts. *)
Lemma stops_word : forall st c c', word_start c = true -> word_start c' = true -> stops st c -> stops st c'.
Proof.
  intros st c c' W W' [->|(p & E & L)]; [left; reflexivity|]. right. exists p. split; [|exact L].
  destruct (word_not_space c W) as (S1 & N1 & L1). destruct (word_not_space c' W') as (S2 & N2 & L2).
  destruct st; try discriminate; cbn [lex_end] in L; injection L as <-; cbn [lex_step] in *.
  - rewrite S2. unfold next_piece. destruct (start_piece c'). reflexivity.
  - exfalso. unfold word_char in E. rewrite W in E. cbn [orb] in E. discriminate.
  - rewrite L2. unfold next_piece. destruct (start_piece c'). reflexivity.
  - exfalso. rewrite N1 in E. discriminate.
Qed.

(** The text of an expression is cut from what is around it. *)
Lemma written_cuts : forall A B C j fs e, written (A ++ B ++ C) j fs e (blen A) (blen (A ++ B)) ->
  exists PA PB PC, pieces A = Some PA /\ pieces B = Some PB /\ pieces C = Some PC /\ pieces (A ++ B ++ C) = Some (PA ++ PB ++ PC) /\ B <> [].
Proof.
  intros A B C j fs e (p & before & first & more & last & after & T & R & N & Eb & Em & Ex & (l & El) & Ey).
  assert (Pt : exists ps, pieces (A ++ B ++ C) = Some ps) by (unfold tokens in T; destruct (pieces (A ++ B ++ C)); [eauto|discriminate]).
  destruct Pt as [ps Pt]. destruct (tokens_cover _ _ _ Pt T) as [Cov Ch]. destruct (cover_sorted _ _ Cov _ Ch) as [Pos Sorted].
  destruct (before_all before (first :: more) after first more eq_refl Sorted Pos l last El) as (F1 & F2 & F3 & F4).
  destruct (toks_head e) as (k0 & r0 & Ek0 & K0).
  destruct (cover_start _ _ Cov (fst first) (snd first)) as (kf & wf & yf & If & Sf).
  { destruct first. apply in_or_app. right. left. reflexivity. }
  { apply starter_nl. rewrite Ek0 in Em. injection Em as -> _. exact K0. }
  destruct (cover_end _ _ Cov (fst last) (snd last)) as (kl & wl & xl & Il & Sl).
  { assert (I : In last (first :: more)) by (rewrite El; apply in_or_app; right; left; reflexivity). destruct last. apply in_or_app. right. apply (in_or_app (first :: more) after). left. exact I. }
  { apply (last_tok e (map fst l)). rewrite <- Em, El, map_app. reflexivity. }
  destruct (place_starts _ _ _ _ _ _ If) as (P1 & Q1 & EP1 & LP1). destruct (place_ends _ _ _ _ _ _ Il) as (P2 & Q2 & EP2 & LP2).
  rewrite Ex in LP1. rewrite Ey in LP2. cbn [Nat.add] in LP1, LP2. 
  assert (XY : blen A < blen (A ++ B)).
  { pose proof (Forall_inv F3) as G. rewrite Ex, Ey in G. pose proof F2 as F2'. rewrite !Forall_app in F2'. destruct F2' as (_ & F2' & _). pose proof (Forall_inv F2') as G2. cbn in *. lia. }
  assert (Split : exists PB, ps = P1 ++ PB ++ Q2 /\ P1 ++ PB = P2 ++ [(kl, wl)]).
  { assert (E : P1 ++ (kf, wf) :: Q1 = (P2 ++ [(kl, wl)]) ++ Q2) by congruence. destruct (app_eq_app _ _ _ _ E) as (m & [[X1 X2]|[X1 X2]]).
    - exfalso. rewrite X1, flat_app, blen_app in LP1. lia.
    - exists m. destruct m as [|[km wm] m]; [exfalso; rewrite app_nil_r in X1; rewrite X1 in LP2; lia|].
      cbn [app] in X2. injection X2 as <- <- X2. split; [rewrite EP1, X2; reflexivity|auto]. }
  destruct Split as (PB & EPs & EPB).
  pose proof (pieces_concat _ _ Pt) as Fl. rewrite EPs in Fl, Pt. rewrite flat_app in Fl. destruct (blen_prefix _ _ _ _ Fl) as [FA Fl2]; [congruence|].
  rewrite flat_app in Fl2. destruct (blen_prefix _ _ _ _ Fl2) as [FB FC].
  { rewrite <- EPB, flat_app, !blen_app, FA in LP2. lia. }
  destruct (pieces_split _ _ _ Pt) as (R1 & R2 & _). rewrite FA in R1. destruct (pieces_split _ _ _ R2) as (R3 & R4 & _). rewrite FB in R3. rewrite FC in R4.
  exists P1, PB, Q2. repeat split; auto. intros ->. rewrite app_nil_r in XY. lia.
Qed.

(** The state at the end of a text. *)
Lemma end_state : forall t P k v, pieces t = Some (P ++ [(k, v)]) ->
  snd (lex_run LIdle t) = LIdle \/ lex_end (snd (lex_run LIdle t)) = Some [(k, v)].
Proof.
  intros t P k v H. unfold pieces in H. destruct (lex_run LIdle t) as [o st]. cbn [snd]. destruct (lex_end st) as [l|] eqn:L; [|discriminate].
  cbn [option_map] in H. injection H as H. destruct st; try discriminate; [left; reflexivity|..]; right; cbn [lex_end] in L; injection L as <-;
    apply app_inj_tail in H; destruct H as [_ ->]; reflexivity.
Qed.
Lemma not_long : forall a b, (forall o, In o long_ops -> o <> a ++ b) -> is_long (a ++ b) = false.
Proof.
  intros a b H. unfold is_long. apply Bool.not_true_is_false. intros E. apply existsb_exists in E. destruct E as (o & I & E). apply teqb_eq in E. exact (H o I (eq_sym E)).
Qed.
Lemma stops_nil : forall st c, st <> LBad -> (exists k v, lex_end st = Some [(k, v)] /\ (k = RSpace \/ k = ROp /\ In v [lit "("; lit "{"; lit ","; lit ")"; lit "]"; lit "}"])) ->
  space_char c = false -> stops st c.
Proof.
  intros st c B (k & v & L & H) S. right. exists (k, v). split; [|exact L].
  destruct st; try discriminate; cbn [lex_end] in L; injection L as <- <-; cbn [lex_step].
  - rewrite S. unfold next_piece. destruct (start_piece c). reflexivity.
  - destruct H as [H|[H _]]; discriminate.
  - destruct H as [H|[_ H]]; [discriminate|].
    assert (E : is_long (w ++ [c]) = false).
    { apply not_long. intros o I E.
      assert (X : exists h, hd_error w = Some h /\ In h [40; 123; 44; 41; 93; 125]%N).
      { cbn [In] in H. repeat (destruct H as [<-|H]; [eexists; split; [reflexivity|vm_compute; auto 10]|]). contradiction. }
      destruct X as (h & X & Y). destruct w as [|h' w]; [discriminate|]. injection X as ->.
      assert (Z : hd_error o = Some h) by (rewrite E; reflexivity).
      cbv [long_ops In] in I. repeat (destruct I as [<-|I]; [vm_compute in Z; injection Z as <-; cbn [In] in Y; intuition discriminate|]). contradiction. }
    rewrite E. unfold next_piece. destruct (start_piece c). reflexivity.
  - destruct H as [H|[H _]]; discriminate.
Qed.
Lemma closer_stops : forall st c v, word_char c = false -> (quote c = true -> v <> lit "r" /\ v <> lit "R") -> (In c (lit "+-") -> exponent v = false) ->
  lex_end st = Some [(RWord, v)] -> stops st c.
Proof.
  intros st c v Wc Qc Sc L. right. exists (RWord, v). split; [|exact L].
  destruct st; try discriminate; cbn [lex_end] in L; injection L as ->; cbn [lex_step]. rewrite Wc. cbn [orb].
  assert (E1 : exponent v && (ceqb c 43%N || ceqb c 45%N) = false).
  { destruct (ceqb c 43%N || ceqb c 45%N) eqn:E; [|apply Bool.andb_false_r]. rewrite Sc; [reflexivity|].
    apply Bool.orb_true_iff in E. destruct E as [E|E]; apply N.eqb_eq in E; subst c; vm_compute; auto. }
  rewrite E1.
  assert (E2 : quote c && (teqb v (lit "r") || teqb v (lit "R")) = false).
  { destruct (quote c); [|reflexivity]. destruct (Qc eq_refl) as [N1 N2]. cbn [andb].
    destruct (teqb v (lit "r")) eqn:T1; [apply teqb_eq in T1; contradiction|]. destruct (teqb v (lit "R")) eqn:T2; [apply teqb_eq in T2; contradiction|]. reflexivity. }
  rewrite E2. unfold next_piece. destruct (start_piece c). reflexivity.
Qed.
Theorem usual_cuts : forall A B C w j fs e, written (A ++ B ++ C) j fs e (blen A) (blen (A ++ B)) ->
  starts_well A B w -> ends_well w C -> cut_at (A ++ w ++ C) (blen A) /\ cut_at (A ++ w ++ C) (blen A + blen w).
Proof.
  intros A B C w j fs e W (c & w1 & -> & Sc & St) (PW & k & v & Pw & En).
  destruct (written_cuts _ _ _ _ _ _ W) as (PA & PB & PC & QA & QB & QC & Q & NB).
  assert (WC : pieces ((c :: w1) ++ C) = Some ((PW ++ [(k, v)]) ++ PC)).
  { destruct C as [|d C]; [cbn in QC; injection QC as <-; rewrite !app_nil_r; exact Pw|]. apply stops_apart; [exact Pw|exact QC|].
    destruct (end_state _ _ _ _ Pw) as [E|E]; [left; exact E|].
    destruct En as [->|[[-> I]|[-> [X|(c0 & C1 & X & I1 & I2 & I3)]]]].
    - exfalso. destruct (snd (lex_run LIdle (c :: w1))); discriminate.
    - destruct (space_char d) eqn:Sd.
      + right. exists (ROp, v). split; [|exact E]. destruct (snd (lex_run LIdle (c :: w1))); try discriminate; cbn [lex_end] in E; injection E as ->. cbn [lex_step].
        assert (X : is_long (v ++ [d]) = false).
        { apply not_long. intros o J Eo. assert (Z : last o 0%N = d) by (rewrite Eo; apply last_last).
          cbv [long_ops In] in J. repeat (destruct J as [<-|J]; [vm_compute in Z; subst d; discriminate|]). contradiction. }
        rewrite X. unfold next_piece. destruct (start_piece d). reflexivity.
      + apply stops_nil; [|exists ROp, v; split; [exact E|right; split; [reflexivity|]]|exact Sd].
        * intros X. rewrite X in E. discriminate.
        * cbn [In] in I |- *. tauto.
    - discriminate.
    - injection X as -> ->. exact (closer_stops _ _ v I1 I2 I3 E). }
  assert (AW : pieces (A ++ (c :: w1) ++ C) = Some (PA ++ (PW ++ [(k, v)]) ++ PC)).
  { apply stops_apart; [exact QA|exact WC|]. destruct St as [(b & B1 & -> & Hb)|[->|(PA' & k' & v' & PA2 & K)]].
    - assert (Sb : stops (snd (lex_run LIdle A)) b).
      { apply (apart_stops A b (B1 ++ C)). exists PA, (PB ++ PC). split; [exact QA|]. split; [|exact Q].
        destruct (pieces_split (A ++ (b :: B1) ++ C) PA (PB ++ PC) Q) as (_ & Z & F). pose proof (pieces_concat _ _ QA) as FA. rewrite FA in F.
        apply app_inv_head in F. rewrite <- F in Z. exact Z. }
      destruct Hb as [->|[H1 H2]]; [exact Sb|exact (stops_word _ b c H1 H2 Sb)].
    - left. reflexivity.
    - destruct (end_state _ _ _ _ PA2) as [E|E]; [left; exact E|]. apply stops_nil; [intros X; rewrite X in E; discriminate| |exact Sc].
      exists k', v'. split; [exact E|]. destruct K as [->|[->|[-> I]]]; [exfalso; destruct (snd (lex_run LIdle A)); discriminate|left; reflexivity|].
      right. split; [reflexivity|]. cbn [In] in *. tauto. }
  split.
  - exists A, ((c :: w1) ++ C). split; [reflexivity|]. split; [reflexivity|]. exists PA, ((PW ++ [(k, v)]) ++ PC). auto.
  - exists (A ++ c :: w1), C. split; [rewrite <- app_assoc; reflexivity|]. split; [apply blen_app|]. exists (PA ++ PW ++ [(k, v)]), PC.
    destruct (pieces_split (A ++ (c :: w1) ++ C) (PA ++ PW ++ [(k, v)]) PC) as (Z1 & Z2 & Z3); [rewrite <- app_assoc; exact AW|].
    rewrite flat_app in Z1, Z3. rewrite (pieces_concat _ _ QA), (pieces_concat _ _ Pw) in *. split; [exact Z1|]. split; [exact QC|].
    rewrite <- !app_assoc in *. exact AW.
Qed.
