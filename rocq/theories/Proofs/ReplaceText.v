(** Replacing the text of an expression replaces its tokens, and nothing else. *)
From Coq Require Import Sorting.Sorted.
From Verif Require Import Spec.RText Proofs.TextProofs Proofs.LspProofs Proofs.RParse Proofs.RParseSound Proofs.RContext Proofs.CommentProofs Proofs.LocalText.

(** ** Moving pieces *)
Definition move_span (k : nat) (s : span) : span := (k + fst s, k + snd s).
Definition move (k : nat) (p : placed) : placed := (fst p, move_span k (snd p)).
Definition move_tok (k : nat) (q : ptok) : ptok := (fst q, move_span k (snd q)).
Lemma place_move : forall k ps pos, place_pieces (k + pos) ps = map (move k) (place_pieces pos ps).
Proof.
  intros k. induction ps as [|[r w] ps IH]; intros pos; [reflexivity|]. cbn [place_pieces map]. unfold move at 1. cbn [fst snd]. unfold move_span. cbn [fst snd].
  rewrite Nat.add_assoc, <- IH, Nat.add_assoc. reflexivity.
Qed.
Lemma visible_move : forall k L, filter visible (map (move k) L) = map (move k) (filter visible L).
Proof. intros k. induction L as [|[[r w] s] L IH]; [reflexivity|]. cbn [map filter]. unfold move at 1. cbn [fst snd]. destruct r; cbn [visible map]; rewrite IH; reflexivity. Qed.
Lemma after_breaks_move : forall k L, after_breaks (map (move k) L) = after_breaks L.
Proof. intros k. induction L as [|[[r w] s] L IH]; [reflexivity|]. cbn [map]. unfold move at 1. cbn [fst snd]. destruct r; try reflexivity. exact IH. Qed.
Lemma cons_tok_move : forall n k s r, cons_tok k (move_span n s) (option_map (map (move_tok n)) r) = option_map (map (move_tok n)) (cons_tok k s r).
Proof. intros n k s [r|]; reflexivity. Qed.
Lemma move_two : forall n (a b : span), (fst (move_span n a), snd (move_span n b)) = move_span n (fst a, snd b).
Proof. reflexivity. Qed.
Lemma arrange_move : forall m k L cx op hd, length L <= m -> arrange cx op hd (map (move k) L) = option_map (map (move_tok k)) (arrange cx op hd L).
Proof.
  induction m as [|m IH]; intros k L cx op hd Hm; (destruct L as [|[[r w] s] L]; [cbn [map arrange]; destruct cx; reflexivity|]); [cbn in Hm; lia|].
  assert (Hm' : length L <= m) by (cbn [length] in Hm; lia). cbn [map]. unfold move at 1. cbn [fst snd]. destruct r.
  - rewrite !arrange_word. destruct (is_name w); [|rewrite IH, cons_tok_move; [reflexivity|exact Hm']].
    assert (N : ns_of (map (move k) L) = match ns_of L with Some (i, n, s2, r') => Some (i, n, move_span k s2, map (move k) r') | None => None end).
    { destruct L as [|[[k1 o] s1] [|[[k2 n] s2] L]]; try reflexivity; try (destruct k1; reflexivity). destruct k1; try reflexivity. destruct k2; try reflexivity.
      cbn [map move ns_of fst snd]. destruct (teqb o (lit "::")); [reflexivity|]. destruct (teqb o (lit ":::")); reflexivity. }
    rewrite N. destruct (ns_of L) as [[[[i n] s2] r']|] eqn:E; [|rewrite IH, cons_tok_move; [reflexivity|exact Hm']].
    rewrite move_two, IH, cons_tok_move; [reflexivity|].
    destruct L as [|[[k1 o] s1] [|[[k2 n'] s3] L]]; try discriminate; destruct k1; try discriminate. destruct k2; try discriminate.
    cbn [ns_of] in E. cbn [length] in Hm'. destruct (teqb o (lit "::")); [injection E as _ _ _ <-; lia|]. destruct (teqb o (lit ":::")); [injection E as _ _ _ <-; lia|discriminate].
  - cbn [arrange]. rewrite IH, cons_tok_move; [reflexivity|exact Hm'].
  - assert (One : forall t cx1 op1 hd1, cons_tok t (move_span k s) (arrange cx1 op1 hd1 (map (move k) L)) = option_map (map (move_tok k)) (cons_tok t s (arrange cx1 op1 hd1 L))).
    { intros. rewrite IH, cons_tok_move; [reflexivity|exact Hm']. }
    cbn [arrange].
    destruct (teqb w (lit "(")); [apply One|]. destruct (teqb w (lit ")")); [destruct cx as [|[h|d|] cx]; try reflexivity; apply One|].
    destruct (teqb w (lit "[")); [apply One|]. destruct (teqb w (lit "[[")); [apply One|].
    destruct (teqb w (lit "]")).
    { destruct cx as [|[h|d|] cx]; try reflexivity. destruct d; [|apply One]. destruct L as [|[[k2 w2] s2] L]; [reflexivity|].
      cbn [map]. unfold move at 1. cbn [fst snd]. destruct k2; try reflexivity.
      replace (snd (move_span k s) =? fst (move_span k s2)) with (snd s =? fst s2).
      2:{ unfold move_span. cbn [fst snd]. destruct (Nat.eqb_spec (snd s) (fst s2)), (Nat.eqb_spec (k + snd s) (k + fst s2)); try reflexivity; lia. }
      destruct (teqb w2 (lit "]") && (snd s =? fst s2)); [|reflexivity]. rewrite move_two, IH, cons_tok_move; [reflexivity|cbn [length] in Hm'; lia]. }
    destruct (teqb w (lit "{")); [apply One|]. destruct (teqb w (lit "}")); [destruct cx as [|[h|d|] cx]; try reflexivity; apply One|].
    destruct (teqb w (lit ",")); [apply One|]. destruct (teqb w (lit "!")); [apply One|].
    destruct (teqb w (lit "$") || teqb w (lit "@")).
    { destruct L as [|[[k2 w2] s2] L]; [reflexivity|]. cbn [map]. unfold move at 1. cbn [fst snd]. destruct k2; try reflexivity.
      rewrite move_two, IH, cons_tok_move; [reflexivity|cbn [length] in Hm'; lia]. }
    destruct (binary w); [apply One|reflexivity].
  - cbn [arrange]. destruct op; [|apply IH, Hm']. rewrite after_breaks_move. destruct (kept cx (after_breaks L)) as [[|]|]; [|apply IH, Hm'|reflexivity].
    rewrite IH, cons_tok_move; [reflexivity|exact Hm'].
  - cbn [arrange]. apply IH, Hm'.
  - cbn [arrange]. apply IH, Hm'.
Qed.
Lemma map_fst_move : forall k pts, map fst (map (move_tok k) pts) = map fst pts.
Proof. intros k pts. rewrite map_map. reflexivity. Qed.
Lemma no_colons_move : forall k L, no_colons L -> no_colons (map (move k) L).
Proof. intros k [|[[r w] s] L] H; [exact Logic.I|]. destruct r; exact H || exact Logic.I. Qed.

(** ** Where the tokens are *)
Lemma arrange_from : forall m x L cx op hd pts, length L <= m -> Forall (fun p => x <= fst (sp_of p)) L ->
  arrange cx op hd L = Some pts -> Forall (fun q : ptok => x <= fst (snd q)) pts.
Proof.
  induction m as [|m IH]; intros x L cx op hd pts Hm F H; (destruct L as [|[[r w] s] L]; [cbn [arrange] in H; destruct cx; [injection H as <-; constructor|discriminate]|]); [cbn in Hm; lia|].
  assert (Hm' : length L <= m) by (cbn [length] in Hm; lia). assert (F' := Forall_inv_tail F). assert (X := Forall_inv F). cbn [sp_of snd] in X.
  assert (Emit : forall k s' L' cx1 op1 hd1, fst s' = fst s -> length L' <= m -> Forall (fun p => x <= fst (sp_of p)) L' -> cons_tok k s' (arrange cx1 op1 hd1 L') = Some pts ->
    Forall (fun q : ptok => x <= fst (snd q)) pts).
  { intros k s' L' cx1 op1 hd1 E1 E2 E3 E4. apply cons_tok_some in E4. destruct E4 as (pts' & E4 & ->). constructor; [cbn [snd]; lia|]. exact (IH _ _ _ _ _ _ E2 E3 E4). }
  destruct r.
  - rewrite arrange_word in H. destruct (is_name w); [|exact (Emit _ _ _ _ _ _ eq_refl Hm' F' H)].
    destruct (ns_of L) as [[[[i n] s2] r']|] eqn:E; [|exact (Emit _ _ _ _ _ _ eq_refl Hm' F' H)].
    refine (Emit _ (fst s, snd s2) r' _ _ _ eq_refl _ _ H);
    destruct L as [|[[k1 o] s1] [|[[k2 n'] s3] L]]; try discriminate; destruct k1; try discriminate; destruct k2; try discriminate;
    cbn [ns_of] in E; cbn [length] in Hm'; assert (L = r') by (destruct (teqb o (lit "::")); [|destruct (teqb o (lit ":::")); [|discriminate]]; injection E; auto); subst r'; [lia|].
    exact (Forall_inv_tail (Forall_inv_tail F')).
  - exact (Emit _ _ _ _ _ _ eq_refl Hm' F' H).
  - destruct (op_cases cx op hd w s) as [k cx1 op1 hd1 K A|A|cx' -> A|A].
    + rewrite A in H. exact (Emit _ _ _ _ _ _ eq_refl Hm' F' H).
    + rewrite A in H. discriminate.
    + rewrite A in H. destruct L as [|[[k1 o] s1] L]; [discriminate|]. destruct k1; try discriminate. destruct (teqb o (lit "]") && (snd s =? fst s1)); [|discriminate].
      refine (Emit _ (fst s, snd s1) _ _ _ _ eq_refl _ (Forall_inv_tail F') H). cbn [length] in Hm'. lia.
    + rewrite A in H. destruct L as [|[[k1 o] s1] L]; [discriminate|]. destruct k1; try discriminate.
      refine (Emit _ (fst s, snd s1) _ _ _ _ eq_refl _ (Forall_inv_tail F') H). cbn [length] in Hm'. lia.
  - cbn [arrange] in H. destruct op; [|exact (IH _ _ _ _ _ _ Hm' F' H)]. destruct (kept cx (after_breaks L)) as [[|]|]; [|exact (IH _ _ _ _ _ _ Hm' F' H)|discriminate].
    exact (Emit _ _ _ _ _ _ eq_refl Hm' F' H).
  - exact (IH _ _ _ _ _ _ Hm' F' H).
  - exact (IH _ _ _ _ _ _ Hm' F' H).
Qed.
Lemma cover_end : forall L pts, cover L pts -> forall t s, In (t, s) pts -> t <> TNl ->
  exists k w x, In (k, w, (x, snd s)) L /\ solid k = true.
Proof.
  induction 1 as [|[[k w] [a b]] L pts K C IH|w [a b] L pts C IH|k w [a b] t L pts K T C IH
    |k1 w1 [a1 b1] sp1 k2 w2 [a2 b2] t L pts K1 K2 S1 T C IH
    |k1 w1 [a1 b1] sp1 k2 w2 s2 sp2 k3 w3 [a3 b3] t L pts K1 K2 K3 S1 S2 T C IH]; intros t0 s0 J N.
  - contradiction.
  - destruct (IH _ _ J N) as (k' & w' & y & A & B). exists k', w', y. split; [right; exact A|exact B].
  - destruct J as [E|J]; [congruence|]. destruct (IH _ _ J N) as (k' & w' & y & A & B). exists k', w', y. split; [right; exact A|exact B].
  - destruct J as [E|J]; [injection E as <- <-; exists k, w, a; split; [left; reflexivity|exact K]|].
    destruct (IH _ _ J N) as (k' & w' & y & A & B). exists k', w', y. split; [right; exact A|exact B].
  - destruct J as [E|J]; [injection E as <- <-; exists k2, w2, a2; split; [right; apply in_or_app; right; left; reflexivity|exact K2]|].
    destruct (IH _ _ J N) as (k' & w' & y & A & B). exists k', w', y. split; [right; apply in_or_app; right; right; exact A|exact B].
  - destruct J as [E|J]; [injection E as <- <-; exists k3, w3, a3; split; [right; apply in_or_app; right; right; apply in_or_app; right; left; reflexivity|exact K3]|].
    destruct (IH _ _ J N) as (k' & w' & y & A & B). exists k', w', y.
    split; [right; apply in_or_app; right; right; apply in_or_app; right; right; exact A|exact B].
Qed.
Lemma split_at : forall (x : nat) (a b c d : list ptok), a ++ b = c ++ d ->
  Forall (fun q : ptok => fst (snd q) < x) a -> Forall (fun q : ptok => fst (snd q) < x) c ->
  Forall (fun q : ptok => x <= fst (snd q)) b -> Forall (fun q : ptok => x <= fst (snd q)) d -> a = c /\ b = d.
Proof.
  intros x. induction a as [|q a IH]; intros b [|q' c] d E Fa Fc Fb Fd; cbn [app] in E.
  - auto.
  - subst b. pose proof (Forall_inv Fb). pose proof (Forall_inv Fc). cbn in *. lia.
  - subst d. pose proof (Forall_inv Fd). pose proof (Forall_inv Fa). cbn in *. lia.
  - injection E as <- E. destruct (IH _ _ _ E (Forall_inv_tail Fa) (Forall_inv_tail Fc) Fb Fd) as [-> ->]. auto.
Qed.

(** ** Line breaks before something else *)
Lemma breaks_first : forall NL p W, Forall (fun q => kind q = RNl) NL -> kind p <> RNl -> after_breaks (NL ++ p :: W) = Some (fst p).
Proof.
  induction NL as [|[[r w] s] NL IH]; intros [[k v] sv] W F K.
  - cbn [app after_breaks fst]. destruct k; try reflexivity. contradiction K; reflexivity.
  - pose proof (Forall_inv F) as E. cbn in E. subst r. cbn [app after_breaks]. apply IH; [exact (Forall_inv_tail F)|exact K].
Qed.
Lemma breaks_dropped : forall NL cx hd W, Forall (fun q => kind q = RNl) NL -> arrange cx false hd (NL ++ W) = arrange cx false hd W.
Proof. induction NL as [|[[r w] s] NL IH]; intros cx hd W F; [reflexivity|]. pose proof (Forall_inv F) as E. cbn in E. subst r. cbn [app arrange]. apply IH, (Forall_inv_tail F). Qed.
Lemma breaks_ignored : forall NL cx hd p W, Forall (fun q => kind q = RNl) NL -> kind p <> RNl -> kept cx (Some (fst p)) = Some false ->
  arrange cx true hd (NL ++ p :: W) = arrange cx true hd (p :: W).
Proof.
  induction NL as [|[[r w] s] NL IH]; intros cx hd p W F K E; [reflexivity|]. pose proof (Forall_inv F) as E1. cbn in E1. subst r. cbn [app arrange].
  rewrite breaks_first, E; [|exact (Forall_inv_tail F)|exact K]. apply IH; auto. exact (Forall_inv_tail F).
Qed.
Lemma breaks_end : forall V : list placed, exists V1 NL, V = V1 ++ NL /\ Forall (fun q => kind q = RNl) NL /\ ends_solid V1.
Proof.
  induction V as [|p V (V1 & NL & -> & F & E)] using rev_ind; [exists [], []; repeat split; [constructor|left; reflexivity]|].
  destruct (kind p) eqn:K.
  4:{ exists V1, (NL ++ [p]). split; [rewrite app_assoc; reflexivity|]. split; [|exact E]. apply Forall_app. split; [exact F|constructor; [exact K|constructor]]. }
  all: exists ((V1 ++ NL) ++ [p]), []; repeat split; [rewrite app_nil_r; reflexivity|constructor|right; exists (V1 ++ NL), p; split; [reflexivity|congruence]].
Qed.

Lemma break_kept : forall NL cx hd w s p W, Forall (fun q => kind q = RNl) NL -> kind p <> RNl -> kept cx (Some (fst p)) = Some true ->
  arrange cx true hd ((RNl, w, s) :: NL ++ p :: W) = cons_tok TNl s (arrange cx false hd (p :: W)).
Proof.
  intros NL cx hd w s p W F K E. rewrite <- (breaks_dropped NL cx hd (p :: W) F). generalize (breaks_first NL p W F K). generalize (NL ++ p :: W). intros L B.
  cbn [arrange]. rewrite B, E. reflexivity.
Qed.

(** ** The pieces of the two texts *)
Lemma place_small : forall P pos, forallb not_empty P = true -> Forall (small (pos + blen (flat P))) (filter visible (place_pieces pos P)).
Proof.
  intros P pos N. apply Forall_forall. intros [[k w] [a b]] I. apply filter_In in I. destruct I as [I _]. unfold small, sp_of. cbn [snd fst].
  pose proof (chain_in _ _ _ _ _ _ (place_chain P pos N) I). pose proof (place_end _ _ _ _ _ _ I). lia.
Qed.
Lemma place_large : forall P pos, forallb not_empty P = true -> Forall (large pos) (filter visible (place_pieces pos P)).
Proof.
  intros P pos N. apply Forall_forall. intros [[k w] [a b]] I. apply filter_In in I. destruct I as [I _]. unfold large, sp_of. cbn [snd fst].
  pose proof (chain_in _ _ _ _ _ _ (place_chain P pos N) I). lia.
Qed.
Lemma place_visible : forall P pos, Forall (fun p => kind p <> RSpace /\ kind p <> RComment) (filter visible (place_pieces pos P)).
Proof.
  intros P pos. apply Forall_forall. intros [[k w] s] I. apply filter_In in I. destruct I as [_ I]. unfold kind. cbn [fst]. destruct k; try discriminate; split; discriminate.
Qed.
Lemma bare_visible : forall P pos d, bare_break d (map fst (filter visible (place_pieces pos P))) = bare_break d P.
Proof.
  induction P as [|[k w] P IH]; intros pos d; [reflexivity|]. cbn [place_pieces filter]. destruct k; cbn [visible map fst bare_break]; rewrite ?IH; reflexivity.
Qed.
Definition solid_head (P : list piece) : Prop := exists k w Q, P = (k, w) :: Q /\ solid k = true.
Definition solid_last (P : list piece) : Prop := exists Q k w, P = Q ++ [(k, w)] /\ solid k = true.
Lemma solid_visible : forall k w s, solid k = true -> visible (k, w, s) = true.
Proof. intros k w s H. destruct k; discriminate || reflexivity. Qed.
Lemma solid_break : forall k, solid k = true -> k <> RNl.
Proof. intros k H ->. discriminate. Qed.
Lemma starter_piece : forall V pts k r, Forall (fun p => kind p <> RSpace /\ kind p <> RComment) V -> bare_break 0 (map fst V) = false ->
  arrange [] false false V = Some pts -> map fst pts = k :: r -> starter k ->
  exists p V', V = p :: V' /\ kind p <> RNl /\ forall cx, ignoring cx = false -> kept cx (Some (fst p)) = Some true.
Proof.
  intros [|[[q w] s] V] pts k r F B A E K; [injection A as <-; discriminate|]. exists (q, w, s), V. split; [reflexivity|]. cbn [map fst bare_break] in B.
  destruct q.
  - split; [discriminate|]. intros cx G. unfold kept. rewrite G. cbn [fst]. rewrite arrange_word in A.
    assert (W : teqb w (lit "else") = false).
    { destruct (teqb w (lit "else")) eqn:X; [|reflexivity]. apply teqb_eq in X. subst w. change (is_name (lit "else")) with false in A.
      apply cons_tok_some in A. destruct A as (pts' & _ & ->). injection E as <- _. destruct K. }
    rewrite W. reflexivity.
  - split; [discriminate|]. intros cx G. unfold kept. rewrite G. reflexivity.
  - split; [discriminate|]. intros cx G. unfold kept. rewrite G. cbn [fst].
    assert (W : teqb w (lit "}") = false).
    { destruct (teqb w (lit "}")) eqn:X; [|reflexivity]. apply teqb_eq in X. subst w. discriminate A. }
    rewrite W. reflexivity.
  - discriminate.
  - destruct (Forall_inv F) as [_ X]. contradiction X; reflexivity.
  - destruct (Forall_inv F) as [X _]. contradiction X; reflexivity.
Qed.

Lemma replace_pieces : forall PA PB PC PW before mid after cx e e' pw,
  forallb not_empty (PA ++ PB ++ PC) = true -> solid_head PB -> solid_last PB ->
  arrange [] false false (filter visible (place_pieces 0 (PA ++ PB ++ PC))) = Some (before ++ mid ++ after) ->
  Forall (fun q : ptok => snd (snd q) <= blen (flat PA)) before -> Forall (fun q : ptok => fst (snd q) < snd (snd q)) (before ++ mid ++ after) ->
  Forall (fun q : ptok => blen (flat PA) <= fst (snd q) /\ snd (snd q) <= blen (flat (PA ++ PB))) mid -> Forall (fun q : ptok => blen (flat (PA ++ PB)) <= fst (snd q)) after ->
  after_toks ([], false, false) (map fst before) = Some (cx, false, false) -> (forall l, map fst before = l ++ [TNl] -> ignoring cx = false) ->
  map fst mid = toks e -> tokens (flat PW) = Some pw -> pieces (flat PW) = Some PW -> map fst pw = toks e' -> bare_break 0 PW = false ->
  exists new after' : list ptok, arrange [] false false (filter visible (place_pieces 0 (PA ++ PW ++ PC))) = Some (before ++ new ++ after') /\ map fst new = toks e' /\ map fst after' = map fst after.
Proof.
  intros PA PB PC PW before mid after cx e e' pw NE (kh & wh & Qh & Eh & Sh) (Ql & kl & wl & El & Sl) A Fb Fpos Fm Fa St Ig Em Tw Pw Ew Bw.
  rewrite !forallb_app in NE. apply andb_prop in NE. destruct NE as [NA NE]. apply andb_prop in NE. destruct NE as [NB NC].
  rewrite !place_app, !filter_app in A. rewrite flat_app, blen_app in Fm, Fa. set (x := blen (flat PA)) in *. set (n := blen (flat PB)) in *. cbn [Nat.add] in A.
  set (VA := filter visible (place_pieces 0 PA)) in *. set (VB := filter visible (place_pieces x PB)) in *. set (VC := filter visible (place_pieces (x + n) PC)) in *.
  assert (SA : Forall (small x) VA) by exact (place_small PA 0 NA).
  assert (SB : Forall (small (x + n)) VB) by exact (place_small PB x NB).
  assert (LB : Forall (large x) VB) by exact (place_large PB x NB).
  assert (LC : Forall (large (x + n)) VC) by exact (place_large PC (x + n) NC).
  assert (HB : exists p VB', VB = p :: VB' /\ kind p <> RNl).
  { unfold VB. rewrite Eh. cbn [place_pieces filter]. rewrite (solid_visible _ _ _ Sh). eexists _, _. split; [reflexivity|]. apply (solid_break kh Sh). }
  assert (TB : ends_solid VB).
  { unfold VB. rewrite El, place_app, filter_app. cbn [place_pieces filter]. rewrite (solid_visible _ _ _ Sl). right. eexists _, _. split; [reflexivity|]. apply (solid_break kl Sl). }
  destruct HB as (pB & VB' & HB & KB).
  destruct (breaks_end VA) as (V1 & NL & EV & FN & E1).
  (* the first cut *)
  assert (C1 : cut [] false false V1 (NL ++ VB ++ VC) x (before ++ mid ++ after)).
  { apply (arrange_cut (length V1) V1 (NL ++ VB ++ VC) x [] false false); [apply le_n|exact E1| | |rewrite EV, <- app_assoc in A; exact A].
    - rewrite EV in SA. apply Forall_app in SA. tauto.
    - destruct NL as [|[[r w] s] NL]; [|left; pose proof (Forall_inv FN) as K; cbn in K; subst r; eexists _, _, _; reflexivity]. right. cbn [app]. split.
      + apply Forall_app. split; [exact LB|]. eapply Forall_impl; [|exact LC]. intros q [G1 G2]. split; lia.
      + apply Forall_app. split; [|apply Forall_app; split].
        * eapply Forall_impl; [|exact Fb]. intros q G. left. exact G.
        * eapply Forall_impl; [|exact Fm]. intros q [G _]. right. exact G.
        * eapply Forall_impl; [|exact Fa]. intros q G. right. cbn in G. lia. }
  destruct C1 as (p1 & pR & cx1 & op1 & hd1 & Ep & AR & T1 & F1 & Any).
  assert (FW : Forall (fun p => x <= fst (sp_of p)) (VB ++ VC)).
  { apply Forall_app. split; [eapply Forall_impl; [|exact LB]; intros q [_ G]; exact G|eapply Forall_impl; [|exact LC]; intros q [_ G]; lia]. }
  assert (Fb' : Forall (fun q : ptok => fst (snd q) < x) before).
  { apply Forall_app in Fpos. destruct Fpos as [Fp _]. rewrite Forall_forall in *. intros q I. specialize (Fp _ I). specialize (Fb _ I). lia. }
  assert (Fmn : Forall (fun q : ptok => x <= fst (snd q)) (mid ++ after)).
  { apply Forall_app. split; [eapply Forall_impl; [|exact Fm]; intros q [G _]; exact G|eapply Forall_impl; [|exact Fa]; intros q G; cbn in G; lia]. }
  (* what is before the node, for any node *)
  assert (Start : exists pB4 : list ptok, pB4 = before /\ arrange cx false false (VB ++ VC) = Some (mid ++ after) /\
    forall W', (exists p W, W' = p :: W /\ kind p <> RNl /\ (ignoring cx = false -> kept cx (Some (fst p)) = Some true)) -> no_colons W' ->
      arrange [] false false (VA ++ W') = option_map (app pB4) (arrange cx false false W')).
  { rewrite HB in AR |- *. cbn [app] in AR |- *.
    assert (Same : forall hdx, arrange cx1 op1 hdx (pB :: VB' ++ VC) = Some pR -> p1 = before /\ pR = mid ++ after).
    { intros hdx H. destruct (split_at x before (mid ++ after) p1 pR) as [X1 X2]; auto.
      refine (arrange_from _ x _ _ _ _ _ (le_n _) _ H). rewrite HB in FW. exact FW. }
    destruct op1.
    - destruct NL as [|q NL].
      + cbn [app] in AR. destruct (Same _ AR) as [-> ->]. rewrite T1 in St. discriminate.
      + rewrite <- app_comm_cons in AR. destruct q as [[r w] s]. pose proof (Forall_inv FN) as K. cbn in K. subst r. pose proof (Forall_inv_tail FN) as FN'.
        cbn [arrange] in AR. rewrite (breaks_first NL pB (VB' ++ VC) FN' KB) in AR.
        destruct (kept cx1 (Some (fst pB))) as [[|]|] eqn:Kp; [| |discriminate].
        * apply cons_tok_some in AR. destruct AR as (pR' & AR & ->). rewrite (breaks_dropped NL cx1 hd1 _ FN') in AR.
          assert (X : before = p1 ++ [(TNl, s)] /\ mid ++ after = pR').
          { apply (split_at x); [rewrite Ep, <- app_assoc; reflexivity|exact Fb'| |exact Fmn|refine (arrange_from _ x _ _ _ _ _ (le_n _) _ AR); rewrite HB in FW; exact FW].
            apply Forall_app. split; [exact F1|]. constructor; [|constructor]. cbn [snd]. rewrite EV in SA. apply Forall_app in SA. destruct SA as [_ SA].
            pose proof (Forall_inv SA) as [G1 G2]. cbn [sp_of snd] in *. lia. }
          destruct X as [-> <-]. assert (St' : after_toks ([], false, false) (map fst p1 ++ [TNl]) = Some (cx, false, false)) by (rewrite <- St, map_app; reflexivity).
          clear St. rename St' into St. rewrite after_toks_app, T1 in St. cbn [map fst after_toks after_tok] in St. injection St as Ec Eh1. subst cx hd1.
          assert (Ig' : ignoring cx1 = false) by (apply (Ig (map fst p1)); rewrite map_app; reflexivity). clear Ig. rename Ig' into Ig.
          exists (p1 ++ [(TNl, s)]). split; [reflexivity|]. split; [exact AR|]. intros W' (p & W & -> & Kw & Kk) N.
          rewrite EV, <- app_assoc. rewrite Any; [|exact Logic.I]. rewrite <- app_comm_cons, break_kept; auto.
          destruct (arrange cx1 false false (p :: W)); [|reflexivity]. cbn [option_map cons_tok]. rewrite <- app_assoc. reflexivity.
        * rewrite (breaks_ignored NL cx1 hd1 pB _ FN' KB Kp) in AR. destruct (Same _ AR) as [-> ->]. rewrite T1 in St. discriminate.
    - rewrite (breaks_dropped NL cx1 hd1 _ FN) in AR. destruct (Same _ AR) as [-> ->]. rewrite T1 in St. injection St as -> ->.
      exists before. split; [reflexivity|]. split; [exact AR|]. intros W' (p & W & -> & Kw & Kk) N. rewrite EV, <- app_assoc.
      rewrite Any; [rewrite breaks_dropped; auto|]. destruct NL as [|[[r w] s] NL]; [exact N|]. pose proof (Forall_inv FN) as K. cbn in K. subst r. exact Logic.I. }
  destruct Start as (pB4 & EB4 & AM & Bef).
  (* the second cut *)
  assert (C2 : cut cx false false VB VC (x + n) (mid ++ after)).
  { apply (arrange_cut (length VB) VB VC (x + n) cx false false); [apply le_n|exact TB|exact SB| |exact AM]. right. split; [exact LC|]. apply Forall_app. split.
    - eapply Forall_impl; [|exact Fm]. intros q [_ G]. left. exact G.
    - eapply Forall_impl; [|exact Fa]. intros q G. right. exact G. }
  destruct C2 as (p2 & pR2 & cx2 & op2 & hd2 & Ep2 & AR2 & T2 & F2 & _).
  assert (X : mid = p2 /\ after = pR2).
  { apply (split_at (x + n)); auto.
    - rewrite !Forall_app in Fpos. destruct Fpos as (_ & Fp & _). rewrite Forall_forall in *. intros q I. specialize (Fp _ I). specialize (Fm _ I). cbn in *. lia.
    - refine (arrange_from _ (x + n) _ _ _ _ _ (le_n _) _ AR2). eapply Forall_impl; [|exact LC]. intros q [_ G]. exact G. }
  destruct X as [<- <-]. rewrite Em, toks_state in T2. injection T2 as <- <- <-.
  (* the new text *)
  unfold tokens in Tw. rewrite Pw in Tw. set (VW := filter visible (place_pieces 0 PW)) in *.
  rewrite !place_app, !filter_app. cbn [Nat.add]. fold x VA.
  set (m := blen (flat PW)). replace (filter visible (place_pieces x PW)) with (map (move x) VW).
  2:{ unfold VW. rewrite <- visible_move, <- place_move, Nat.add_0_r. reflexivity. }
  set (V0 := filter visible (place_pieces 0 PC)).
  assert (EC : VC = map (move (x + n)) V0). { unfold VC, V0. rewrite <- visible_move, <- place_move, Nat.add_0_r. reflexivity. }
  replace (filter visible (place_pieces (x + m) PC)) with (map (move (x + m)) V0).
  2:{ unfold V0. rewrite <- visible_move, <- place_move, Nat.add_0_r. reflexivity. }
  rewrite EC, (arrange_move _ _ _ _ _ _ (le_n _)) in AR2.
  destruct (arrange cx true false V0) as [p0|] eqn:A0; [|discriminate]. cbn [option_map] in AR2. injection AR2 as AR2.
  assert (AC : arrange cx true false (map (move (x + m)) V0) = Some (map (move_tok (x + m)) p0)).
  { rewrite (arrange_move _ _ _ _ _ _ (le_n _)), A0. reflexivity. }
  assert (AW : arrange [] false false (map (move x) VW) = Some (map (move_tok x) pw)).
  { rewrite (arrange_move _ _ _ _ _ _ (le_n _)), Tw. reflexivity. }
  assert (BW : bare_break 0 (map fst (map (move x) VW)) = false).
  { rewrite map_map. change (map (fun q => fst (move x q)) VW) with (map fst VW). unfold VW. rewrite bare_visible. exact Bw. }
  assert (VV : Forall (fun p => kind p <> RSpace /\ kind p <> RComment) (map (move x) VW)).
  { apply Forall_map. exact (place_visible PW 0). }
  destruct (in_context _ (map (move x) VW) [] cx false false false _ (le_n _) VV BW (or_introl eq_refl) AW _ (colons_fail _ _ _ _ _ AC)) as (op' & hd' & TW & EW).
  cbn [app] in TW, EW. rewrite map_fst_move, Ew, toks_state in TW. injection TW as <- <-. rewrite AC in EW. cbn [option_map] in EW.
  destruct (toks_head e') as (k & r & Ek & Kk).
  destruct (starter_piece _ _ k r VV BW AW) as (p & V' & EV' & Kp & Ke); [rewrite map_fst_move, Ew; exact Ek|exact Kk|].
  subst pB4. exists (map (move_tok x) pw), (map (move_tok (x + m)) p0). split; [|split].
  - rewrite Bef; [rewrite EW; reflexivity| |exact (colons_fail _ _ _ _ _ EW)].
    rewrite EV'. eexists _, _. split; [reflexivity|]. split; [exact Kp|]. apply Ke.
  - rewrite map_fst_move. exact Ew.
  - pose proof (map_fst_move (x + m) p0) as Z2. pose proof (map_fst_move (x + n) p0) as Z3. rewrite AR2 in Z3. unfold ptok in *. congruence.
Qed.

(** ** The tokens of the new text *)
Lemma blen_prefix : forall a b c d : text, a ++ b = c ++ d -> blen a = blen c -> a = c /\ b = d.
Proof.
  intros a b c d E L. pose proof (bsplit_exact a b (blen c) (eq_sym L)) as H1. pose proof (bsplit_exact c d (blen c) eq_refl) as H2.
  rewrite E, H2 in H1. injection H1 as <- <-. auto.
Qed.
Lemma two_cuts : forall A w C, cut_at (A ++ w ++ C) (blen A) -> cut_at (A ++ w ++ C) (blen (A ++ w)) ->
  exists PA PW PC, pieces A = Some PA /\ pieces w = Some PW /\ pieces C = Some PC /\ pieces (A ++ w ++ C) = Some (PA ++ PW ++ PC).
Proof.
  intros A w C (a & b & E1 & L1 & pa & pb & Pa & Pb & Pab) (a2 & b2 & E2 & L2 & pa2 & pb2 & Pa2 & Pb2 & Pab2).
  destruct (blen_prefix _ _ _ _ E1 (eq_sym L1)) as [<- <-]. rewrite app_assoc in E2. destruct (blen_prefix _ _ _ _ E2 (eq_sym L2)) as [<- <-].
  rewrite <- app_assoc in Pab2. rewrite Pab in Pab2. injection Pab2 as E.
  assert (PW : exists pw, pa2 = pa ++ pw /\ pb = pw ++ pb2).
  { destruct (app_eq_app _ _ _ _ E) as (l & [[X1 X2]|[X1 X2]]).
    - subst pa pb2. exists []. pose proof (pieces_concat _ _ Pa) as F1. pose proof (pieces_concat _ _ Pa2) as F2. rewrite flat_app in F1.
      assert (L : blen (flat l) + blen w = 0). { pose proof (f_equal blen F1) as G1. pose proof (f_equal blen F2) as G2. rewrite !blen_app in *. lia. }
      assert (l = []).
      { destruct l as [|[k v] l]; [reflexivity|]. exfalso. destruct (pieces_fine _ _ Pa) as [_ NE]. rewrite forallb_app in NE. apply andb_prop in NE. destruct NE as [_ NE].
        cbn [forallb not_empty snd] in NE. apply andb_prop in NE. destruct NE as [NE _]. unfold flat in L. cbn [map snd concat] in L. rewrite blen_app in L.
        assert (0 < blen v) by (apply blen_pos; intros ->; discriminate). lia. }
      subst l. rewrite !app_nil_r. auto.
    - exists l. auto. }
  destruct PW as (pw & -> & ->). destruct (pieces_split _ _ _ Pb) as (Q1 & Q2 & Q3).
  pose proof (pieces_concat _ _ Pb2) as F2. rewrite F2 in Q3. apply app_inv_tail in Q3. rewrite <- Q3 in Q1. exists pa, pw, pb2. auto.
Qed.
Lemma before_all : forall (b m a : list ptok) first more, m = first :: more -> StronglySorted follows (map snd (b ++ m ++ a)) ->
  Forall (fun s : span => 0 <= fst s /\ fst s < snd s) (map snd (b ++ m ++ a)) -> forall l last, m = l ++ [last] ->
  Forall (fun q : ptok => snd (snd q) <= fst (snd first)) b /\ Forall (fun q : ptok => fst (snd q) < snd (snd q)) (b ++ m ++ a) /\
  Forall (fun q : ptok => fst (snd first) <= fst (snd q) /\ snd (snd q) <= snd (snd last)) m /\ Forall (fun q : ptok => snd (snd last) <= fst (snd q)) a.
Proof.
  intros b m a first more E So Po l last El.
  assert (Po' : Forall (fun q : ptok => fst (snd q) < snd (snd q)) (b ++ m ++ a)).
  { rewrite Forall_map in Po. eapply Forall_impl; [|exact Po]. intros q [_ G]. exact G. }
  assert (H1 : Forall (fun s' => follows s' (snd first)) (map snd b) /\ Forall (follows (snd first)) (map snd (more ++ a))).
  { apply sorted_app. rewrite E in So. rewrite map_app in So. exact So. }
  assert (H2 : Forall (fun s' => follows s' (snd last)) (map snd (b ++ l)) /\ Forall (follows (snd last)) (map snd a)).
  { apply sorted_app. rewrite El in So. replace (b ++ (l ++ [last]) ++ a) with ((b ++ l) ++ last :: a) in So by (rewrite <- !app_assoc; reflexivity). rewrite map_app in So. exact So. }
  destruct H1 as [A1 A2], H2 as [B1 B2]. rewrite Forall_map in A1, A2, B1, B2. unfold follows in *. split; [exact A1|]. split; [exact Po'|]. split; [|exact B2].
  apply Forall_forall. intros q I. split.
  - rewrite E in I. destruct I as [<-|I]; [lia|]. rewrite Forall_forall in A2. specialize (A2 q (in_or_app _ _ _ (or_introl I))).
    rewrite Forall_forall in Po'. assert (I1 : In first (b ++ m ++ a)) by (rewrite E; apply in_or_app; right; left; reflexivity). specialize (Po' _ I1). cbn in *. lia.
  - rewrite El in I. apply in_app_or in I. destruct I as [I|[<-|[]]]; [|lia]. rewrite Forall_forall in B1. specialize (B1 q (in_or_app _ _ _ (or_intror I))).
    rewrite Forall_forall in Po'. assert (I1 : In last (b ++ m ++ a)) by (rewrite El; apply in_or_app; right; apply in_or_app; left; apply in_or_app; right; left; reflexivity).
    specialize (Po' _ I1). cbn in *. lia.
Qed.
Lemma last_tok : forall e l k, toks e = l ++ [k] -> k <> TNl.
Proof.
  intros e l k E ->. pose proof (toks_state e [] false) as H. rewrite E, after_toks_app in H. destruct (after_toks ([], false, false) l) as [[[c o] h]|]; [|discriminate].
  cbn [after_toks after_tok] in H. destruct o; discriminate.
Qed.

Theorem replace_at : forall t t' p j fs e x y w e', reads_text t p -> written t j fs e x y -> breplace x y w t = Some t' ->
  text_tokens w (toks e') -> breaks_enclosed w -> cut_at t' x -> cut_at t' (x + blen w) ->
  nth_error p j = Some (plug fs e) /\ text_tokens t (edited (place_in p j fs) (toks e)) /\ text_tokens t' (edited (place_in p j fs) (toks e')) /\
  exists before mid after new after' : list ptok, tokens t = Some (before ++ mid ++ after) /\ tokens t' = Some (before ++ new ++ after') /\
    map fst before = sep_before [TNl] (map toks (firstn j p)) ++ pre_toks fs /\ map fst mid = toks e /\ map fst new = toks e' /\
    Forall (fun q : ptok => fst (snd q) < snd (snd q)) (before ++ mid ++ after) /\ Forall (fun q : ptok => x <= fst (snd q)) (mid ++ after).
Proof.
  intros t t' p j fs e x y w e' (pts & T & R) (p' & before & first & more & last & after & T' & R' & N & Eb & Em & Ex & (l & El) & Ey) Br (pw & Tw & Ew) (PW & Pw & Bw) C1 C2.
  rewrite T in T'. injection T' as ->. pose proof (reads_det _ _ _ R R') as <-. clear R'. split; [exact N|].
  assert (M : map fst (before ++ (first :: more) ++ after) = edited (place_in p j fs) (toks e)).
  { rewrite edited_toks. unfold file_with, place_in. cbn [RExpr.before RExpr.frames RExpr.after]. rewrite <- (nth_split_at p j _ N). apply (reads_iff _ p), R. }
  split; [exists (before ++ (first :: more) ++ after); auto|].
  enough (G : exists new after' : list ptok, tokens t' = Some (before ++ new ++ after') /\ map fst new = toks e' /\ map fst after' = map fst after /\
    Forall (fun q : ptok => fst (snd q) < snd (snd q)) (before ++ (first :: more) ++ after) /\ Forall (fun q : ptok => x <= fst (snd q)) ((first :: more) ++ after)).
  { destruct G as (new & after' & T' & En & Ea & G1 & G2). split.
    - exists (before ++ new ++ after'). split; [exact T'|].
      assert (M1 : map fst before ++ map fst (first :: more) ++ map fst after = edited (place_in p j fs) (toks e)).
      { etransitivity; [|exact M]. rewrite !map_app. reflexivity. }
      assert (M2 : map fst (before ++ new ++ after') = map fst before ++ toks e' ++ map fst after).
      { rewrite !map_app. unfold ptok in *. congruence. }
      rewrite M2. rewrite Eb, Em in M1. rewrite Eb. unfold edited in *. cbn [place_in RExpr.before RExpr.frames RExpr.after] in *.
      rewrite <- !app_assoc in *. do 3 apply app_inv_head in M1. rewrite M1. reflexivity.
    - exists before, (first :: more), after, new, after'. repeat split; auto. }
  apply breplace_iff in Br. destruct Br as (A & B & C & -> & LA & LB & ->).
  rewrite <- LA, <- blen_app in C2. rewrite <- LA in C1. destruct (two_cuts A w C C1 C2) as (PA & PW' & PC & QA & QW & QC & Q). rewrite Pw in QW. injection QW as <-.
  assert (Pt : exists ps, pieces (A ++ B ++ C) = Some ps) by (unfold tokens in T; destruct (pieces (A ++ B ++ C)); [eauto|discriminate]).
  destruct Pt as [ps Pt]. destruct (tokens_cover _ _ _ Pt T) as [Cov Ch]. destruct (cover_sorted _ _ Cov _ Ch) as [Pos Sorted].
  destruct (before_all before (first :: more) after first more eq_refl Sorted Pos l last El) as (F1 & F2 & F3 & F4).
  destruct (toks_head e) as (k0 & r0 & Ek0 & K0).
  destruct (cover_start _ _ Cov (fst first) (snd first)) as (kf & wf & yf & If & Sf).
  { destruct first. apply in_or_app. right. left. reflexivity. }
  { apply starter_nl. rewrite Ek0 in Em. injection Em as -> _. exact K0. }
  destruct (cover_end _ _ Cov (fst last) (snd last)) as (kl & wl & xl & Il & Sl).
  { assert (I : In last (first :: more)) by (rewrite El; apply in_or_app; right; left; reflexivity). destruct last. apply in_or_app. right. apply (in_or_app (first :: more) after). left. exact I. }
  { apply (last_tok e (map fst l)). rewrite <- Em, El, map_app. reflexivity. }
  destruct (place_starts _ _ _ _ _ _ If) as (P1 & Q1 & EP1 & LP1). destruct (place_ends _ _ _ _ _ _ Il) as (P2 & Q2 & EP2 & LP2).
  rewrite Ex in LP1. rewrite Ey in LP2. cbn [Nat.add] in LP1, LP2. 
  assert (XY : x < y).
  { pose proof (Forall_inv F3) as G. rewrite Ex, Ey in G. pose proof F2 as F2'. rewrite !Forall_app in F2'. destruct F2' as (_ & F2' & _). pose proof (Forall_inv F2') as G2. cbn in *. lia. }
  assert (Split : exists PB, ps = P1 ++ PB ++ Q2 /\ solid_head PB /\ solid_last PB /\ P1 ++ PB = P2 ++ [(kl, wl)]).
  { assert (E : P1 ++ (kf, wf) :: Q1 = (P2 ++ [(kl, wl)]) ++ Q2) by congruence. destruct (app_eq_app _ _ _ _ E) as (m & [[X1 X2]|[X1 X2]]).
    - exfalso. rewrite X1, flat_app, blen_app in LP1. lia.
    - exists m. destruct m as [|[km wm] m]; [exfalso; rewrite app_nil_r in X1; rewrite X1 in LP2; lia|].
      cbn [app] in X2. injection X2 as <- <- X2. split; [rewrite EP1, X2; reflexivity|]. split; [exists kf, wf, m; auto|]. split; [|auto].
      assert (Z : exists z km' wm', (kf, wf) :: m = z ++ [(km', wm')]).
      { destruct (exists_last (l := (kf, wf) :: m)) as (z & [km' wm'] & Z); [discriminate|]. eauto. }
      destruct Z as (z & km' & wm' & Z). rewrite Z in X1 |- *. rewrite app_assoc in X1. apply app_inj_tail in X1. destruct X1 as [_ X1]. injection X1 as <- <-.
      exists z, kl, wl. auto. }
  destruct Split as (PB & EPs & HB & TB & EPB).
  (* the same cuts *)
  pose proof (pieces_concat _ _ Pt) as Fl. rewrite EPs in Fl, Pt. rewrite flat_app in Fl. destruct (blen_prefix _ _ _ _ Fl) as [FA Fl2]; [congruence|].
  rewrite flat_app in Fl2. destruct (blen_prefix _ _ _ _ Fl2) as [FB FC].
  { rewrite <- EPB, flat_app, blen_app in LP2. lia. }
  destruct (pieces_split _ _ _ Pt) as (R1 & R2 & _). rewrite FA, QA in R1. injection R1 as <-.
  destruct (pieces_split _ _ _ R2) as (_ & R3 & _). rewrite FC, QC in R3. injection R3 as <-.
  pose proof (pieces_concat _ _ Pw) as FW.
  destruct (before_state (firstn j p) fs) as (cx & St & Ig). rewrite <- Eb in St, Ig.
  unfold tokens in T. rewrite Pt in T. destruct (pieces_fine _ _ Pt) as [_ NE].
  assert (LY : blen (flat (PA ++ PB)) = y) by (rewrite LP2; f_equal; f_equal; exact EPB).
  destruct (replace_pieces PA PB PC PW before (first :: more) after cx e e' pw NE HB TB T) as (new & after' & A' & E1 & E2).
  { eapply Forall_impl; [|exact F1]. intros q G. cbn in *. lia. }
  { exact F2. }
  { eapply Forall_impl; [|exact F3]. intros q G. cbn in *. lia. }
  { eapply Forall_impl; [|exact F4]. intros q G. cbn in *. lia. }
  { exact St. } { exact Ig. } { exact Em. } { rewrite FW. exact Tw. } { rewrite FW. exact Pw. } { exact Ew. } { exact Bw. }
  exists new, after'. split; [unfold tokens; rewrite Q; exact A'|]. split; [exact E1|]. split; [exact E2|]. split; [exact F2|].
  apply (proj2 (Forall_app (fun q : ptok => x <= fst (snd q)) (first :: more) after)). split.
  - eapply Forall_impl; [|exact F3]. intros q [G _]. rewrite Ex in G. exact G.
  - eapply Forall_impl; [|exact F4]. intros q G. cbn beta in *. rewrite Ey in G. lia.
Qed.
Theorem replace_tokens : forall t t' p j fs e x y w e', reads_text t p -> written t j fs e x y -> breplace x y w t = Some t' ->
  text_tokens w (toks e') -> breaks_enclosed w -> cut_at t' x -> cut_at t' (x + blen w) ->
  nth_error p j = Some (plug fs e) /\ text_tokens t (edited (place_in p j fs) (toks e)) /\ text_tokens t' (edited (place_in p j fs) (toks e')).
Proof.
  intros t t' p j fs e x y w e' Rd Wr Br Tw Be C1 C2. destruct (replace_at _ _ _ _ _ _ _ _ _ _ Rd Wr Br Tw Be C1 C2) as (A & B & C & _). auto.
Qed.
