(** The fix of numeric_leading_zero in the text of a file. *)
From Coq Require Import Sorting.Sorted.
From Verif Require Import Spec.RDecimals Spec.RWellFormed Proofs.TextProofs Proofs.LspProofs Proofs.FixProofs Proofs.RParse Proofs.RParseSound Proofs.RContext Proofs.RCongruence Proofs.RAlike
  Proofs.RSearchProofs Proofs.CommentProofs Proofs.LocalText Proofs.ReplaceText Proofs.Cuts Proofs.WholeProofs Proofs.TwoPlaces Proofs.LintSyntax Proofs.LintFixes Proofs.PassProofs Proofs.ZeroSearch Spec.RLex.

(** ** A number is one word *)
Lemma word_tok_num : forall w v, word_tok w = TAtom (ANum v) -> w = v /\ number v = true.
Proof.
  intros w v. unfold word_tok.
  repeat match goal with |- context [if ?b then _ else _] => destruct b eqn:?; try discriminate end.
  intros H. injection H as ->. auto.
Qed.
Ltac short := cbn [length] in *; unfold placed in *; lia.
Lemma arrange_num : forall n L cx op hd pts w s, length L <= n -> arrange cx op hd L = Some pts -> In (TAtom (ANum w), s) pts ->
  In (RWord, w, s) L /\ number w = true.
Proof.
  induction n as [|n IH]; intros L cx op hd pts w s Hn A I.
  { destruct L; [|cbn in Hn; lia]. cbn [arrange] in A. destruct cx; [|discriminate]. injection A as <-. contradiction. }
  destruct L as [|[[k v] z] L]; [cbn [arrange] in A; destruct cx; [|discriminate]; injection A as <-; contradiction|]. cbn [length] in Hn.
  assert (Skip : forall L' cx op hd pts, length L' <= n -> (forall q, In q L' -> In q ((k, v, z) :: L)) -> arrange cx op hd L' = Some pts -> In (TAtom (ANum w), s) pts ->
    In (RWord, w, s) ((k, v, z) :: L) /\ number w = true).
  { intros L' cx' op' hd' pts' Hl Inc A' I'. destruct (IH _ _ _ _ _ _ _ Hl A' I') as [J N]. auto. }
  assert (Cons : forall t z' L' cx op hd pts, (forall u, t <> TAtom (ANum u)) -> length L' <= n -> (forall q, In q L' -> In q ((k, v, z) :: L)) ->
    cons_tok t z' (arrange cx op hd L') = Some pts -> In (TAtom (ANum w), s) pts -> In (RWord, w, s) ((k, v, z) :: L) /\ number w = true).
  { intros t z' L' cx' op' hd' pts' N Hl Inc A' I'. apply cons_tok_some in A'. destruct A' as (pts1 & A' & ->). destruct I' as [E|I'].
    - exfalso. injection E as E _. exact (N _ E).
    - exact (Skip _ _ _ _ _ Hl Inc A' I'). }
  assert (R1 : forall q, In q L -> In q ((k, v, z) :: L)) by (intros; right; assumption).
  destruct k; cbn [arrange] in A.
  - assert (Plain : forall pts', match word_tok v with
        | TIf | TFor | TWhile | TFun => cons_tok (word_tok v) z (arrange cx false true L)
        | TAtom _ => cons_tok (word_tok v) z (arrange cx true false L)
        | _ => cons_tok (word_tok v) z (arrange cx false false L)
        end = Some pts' -> In (TAtom (ANum w), s) pts' -> In (RWord, w, s) ((RWord, v, z) :: L) /\ number w = true).
    { intros pts' H J. destruct (word_tok v) as [a| | | | | | | | | | | | | | | | | |] eqn:Ew; try (refine (Cons _ _ _ _ _ _ _ _ _ R1 H J); [discriminate|short]).
      apply cons_tok_some in H. destruct H as (pts1 & H & ->). destruct J as [E|J].
      - injection E as -> ->. apply word_tok_num in Ew. destruct Ew as [-> N]. split; [left; reflexivity|exact N].
      - refine (Skip _ _ _ _ _ _ R1 H J). short. }
    destruct L as [|[[k1 w1] s1] r1]; [exact (Plain _ A I)|].
    destruct k1; try exact (Plain _ A I).
    destruct r1 as [|[[k2 w2] s2] r2]; [exact (Plain _ A I)|].
    destruct k2; try exact (Plain _ A I).
    assert (R3 : forall q, In q r2 -> In q ((RWord, v, z) :: (ROp, w1, s1) :: (RWord, w2, s2) :: r2)) by (intros; do 3 right; assumption).
    cbn [length] in Hn.
    destruct (is_name v && teqb w1 (lit "::")); [refine (Cons _ _ _ _ _ _ _ _ _ R3 A I); [discriminate|short]|].
    destruct (is_name v && teqb w1 (lit ":::")); [refine (Cons _ _ _ _ _ _ _ _ _ R3 A I); [discriminate|short]|exact (Plain _ A I)].
  - refine (Cons _ _ _ _ _ _ _ _ _ R1 A I); [discriminate|short].
  - destruct (teqb v (lit "(")); [refine (Cons _ _ _ _ _ _ _ _ _ R1 A I); [discriminate|short]|].
    destruct (teqb v (lit ")")).
    { destruct cx as [|[h|d|] cx]; try discriminate. refine (Cons _ _ _ _ _ _ _ _ _ R1 A I); [discriminate|short]. }
    destruct (teqb v (lit "[")); [refine (Cons _ _ _ _ _ _ _ _ _ R1 A I); [discriminate|short]|].
    destruct (teqb v (lit "[[")); [refine (Cons _ _ _ _ _ _ _ _ _ R1 A I); [discriminate|short]|].
    destruct (teqb v (lit "]")).
    { destruct cx as [|[h|[|]|] cx]; try discriminate; [|refine (Cons _ _ _ _ _ _ _ _ _ R1 A I); [discriminate|short]].
      destruct L as [|[[k2 w2] s2] r2]; [discriminate|]. destruct k2; try discriminate.
      destruct (teqb w2 (lit "]") && _); [|discriminate]. cbn [length] in Hn. refine (Cons _ _ r2 _ _ _ _ _ _ _ A I); [discriminate|short|intros; do 2 right; assumption]. }
    destruct (teqb v (lit "{")); [refine (Cons _ _ _ _ _ _ _ _ _ R1 A I); [discriminate|short]|].
    destruct (teqb v (lit "}")).
    { destruct cx as [|[h|d|] cx]; try discriminate. refine (Cons _ _ _ _ _ _ _ _ _ R1 A I); [discriminate|short]. }
    destruct (teqb v (lit ",")); [refine (Cons _ _ _ _ _ _ _ _ _ R1 A I); [discriminate|short]|].
    destruct (teqb v (lit "!")); [refine (Cons _ _ _ _ _ _ _ _ _ R1 A I); [discriminate|short]|].
    destruct (teqb v (lit "$") || teqb v (lit "@")).
    { destruct L as [|[[k2 w2] s2] r2]; [discriminate|]. destruct k2; try discriminate. cbn [length] in Hn.
      refine (Cons _ _ r2 _ _ _ _ _ _ _ A I); [discriminate|short|intros; do 2 right; assumption]. }
    destruct (binary v) as [o|]; [|discriminate]. refine (Cons _ _ _ _ _ _ _ _ _ R1 A I); [discriminate|short].
  - destruct op; [|refine (Skip _ _ _ _ _ _ R1 A I); short].
    destruct (kept cx (after_breaks L)) as [[|]|]; [|refine (Skip _ _ _ _ _ _ R1 A I); short|discriminate].
    refine (Cons _ _ _ _ _ _ _ _ _ R1 A I); [discriminate|short].
  - refine (Skip _ _ _ _ _ _ R1 A I); short.
  - refine (Skip _ _ _ _ _ _ R1 A I); short.
Qed.
Lemma token_num : forall t ps pts w s, pieces t = Some ps -> tokens t = Some pts -> In (TAtom (ANum w), s) pts ->
  In (RWord, w, s) (place_pieces 0 ps) /\ number w = true.
Proof.
  intros t ps pts w s P T I. unfold tokens in T. rewrite P in T. destruct (arrange_num _ _ _ _ _ _ _ _ (le_n _) T I) as [J N].
  apply filter_In in J. destruct J as [J _]. auto.
Qed.

(** ** How the word is read *)
Lemma word_run : forall r u c0, hd_error u = Some c0 -> full (LWord u) r = Some [(RWord, u ++ r)] -> lex_run (LWord u) r = ([], LWord (u ++ r)).
Proof.
  induction r as [|c r IH]; intros u c0 H0 H; [rewrite app_nil_r; reflexivity|].
  rewrite full_cons in H. cbn [lex_run]. cbn [lex_step] in *.
  destruct (word_char c || (exponent u && (ceqb c 43%N || ceqb c 45%N))).
  - cbn [fst snd app option_map] in H. destruct (full (LWord (u ++ [c])) r) as [l|] eqn:F; [|discriminate]. cbn [option_map] in H. injection H as ->.
    replace (u ++ c :: r) with ((u ++ [c]) ++ r) in F |- * by (rewrite <- app_assoc; reflexivity).
    rewrite (IH (u ++ [c]) c0); [reflexivity| |exact F]. destruct u; [discriminate|exact H0].
  - exfalso. destruct (quote c && (teqb u (lit "r") || teqb u (lit "R"))).
    + cbn [fst snd] in H. rewrite full_bad in H. discriminate.
    + unfold next_piece in H. destruct (start_piece c) as [out st]. cbn [fst snd] in H. destruct (full st r) as [l|]; [|discriminate]. cbn [option_map app] in H.
      injection H as E _. apply (f_equal (@length _)) in E. rewrite app_length in E. cbn [length] in E. lia.
Qed.
Lemma dot_start : forall r, full LIdle (46%N :: r) = full (LWord [46%N]) r.
Proof. intros r. rewrite full_cons. change (lex_step LIdle 46%N) with (@nil piece, LWord [46%N]). cbn [fst snd app option_map]. destruct (full (LWord [46%N]) r); reflexivity. Qed.
Lemma zero_start : forall r, full LIdle (48%N :: r) = full (LWord [48%N]) r.
Proof. intros r. rewrite full_cons. change (lex_step LIdle 48%N) with (@nil piece, LWord [48%N]). cbn [fst snd app option_map]. destruct (full (LWord [48%N]) r); reflexivity. Qed.
(** With a zero before it, the same signs belong to it. *)
Lemma rev_last : forall (u : text) d, u <> [] -> match rev (d :: u) with c :: _ => ceqb c 101%N || ceqb c 69%N | [] => false end = match rev u with c :: _ => ceqb c 101%N || ceqb c 69%N | [] => false end.
Proof. intros u d H. destruct (exists_last H) as (l & z & ->). cbn [rev]. rewrite rev_app_distr. reflexivity. Qed.
Lemma zero_exponent : forall u, hd_error u = Some 46%N -> (u = [46%N] \/ number u = true) -> exponent (48%N :: u) = exponent u.
Proof.
  intros u H0 H. destruct u as [|c r]; [discriminate|]. injection H0 as ->. destruct H as [H|H].
  - assert (r = []) as -> by congruence. reflexivity.
  - unfold exponent. rewrite rev_last by discriminate. rewrite H. reflexivity.
Qed.
Lemma zero_run : forall r u, hd_error u = Some 46%N -> (u = [46%N] \/ number u = true) -> number (u ++ r) = true -> lex_run (LWord u) r = ([], LWord (u ++ r)) ->
  lex_run (LWord (48%N :: u)) r = ([], LWord (48%N :: u ++ r)).
Proof.
  induction r as [|c r IH]; intros u H0 Hu Nu H; [rewrite app_nil_r; reflexivity|].
  cbn [lex_run] in *. cbn [lex_step] in *. rewrite (zero_exponent u H0 Hu).
  destruct (word_char c || (exponent u && (ceqb c 43%N || ceqb c 45%N))).
  - cbn [app fst snd] in *. replace (u ++ c :: r) with ((u ++ [c]) ++ r) in H, Nu |- * by (rewrite <- app_assoc; reflexivity).
    match type of H with context [lex_run ?a ?b] => destruct (lex_run a b) as [b0 st2] eqn:L end. apply pair_equal_spec in H. destruct H as [-> ->].
    change (48%N :: u ++ [c]) with (48%N :: (u ++ [c])). rewrite (IH (u ++ [c])); [reflexivity| | |exact Nu|exact L].
    + destruct u; [discriminate|exact H0].
    + right. destruct u as [|c0 u]; [discriminate|]. injection H0 as ->. destruct Hu as [Hu|Hu].
      * assert (u = []) as -> by congruence. cbn [app] in Nu |- *. exact Nu.
      * destruct u as [|c1 u]; [discriminate|]. exact Hu.
  - exfalso. destruct (quote c && (teqb u (lit "r") || teqb u (lit "R"))).
    + rewrite bad_stays in H. discriminate.
    + unfold next_piece in H. destruct (start_piece c) as [out st]. destruct (lex_run st r). cbn [app] in H. discriminate.
Qed.
Lemma is_dotted : forall w, dotted w = true -> exists r, w = 46%N :: r.
Proof.
  intros w H. unfold dotted in H. apply andb_prop in H. destruct H as [_ H]. apply starts_with_iff in H. destruct H as [r ->]. exists r. reflexivity.
Qed.
Lemma number_runs : forall w, dotted w = true -> number w = true -> pieces w = Some [(RWord, w)] ->
  lex_run LIdle w = ([], LWord w) /\ lex_run LIdle (48%N :: w) = ([], LWord (48%N :: w)).
Proof.
  intros w D N P. destruct (is_dotted _ D) as (r & ->). rewrite full_pieces, dot_start in P.
  pose proof (word_run r [46%N] 46%N eq_refl P) as R. split.
  - change (lex_run LIdle (46%N :: r)) with (let '(b, st2) := lex_run (LWord [46%N]) r in (@nil piece ++ b, st2)). rewrite R. reflexivity.
  - pose proof (zero_run r [46%N] eq_refl (or_introl eq_refl) N R) as Z.
    change (lex_run LIdle (48%N :: 46%N :: r)) with (let '(b, st2) := (let '(b0, st3) := lex_run (LWord (48%N :: [46%N])) r in (@nil piece ++ b0, st3)) in (@nil piece ++ b, st2)).
    rewrite Z. reflexivity.
Qed.
Lemma zero_pieces : forall w, dotted w = true -> number w = true -> pieces w = Some [(RWord, w)] -> pieces (lit "0" ++ w) = Some [(RWord, lit "0" ++ w)].
Proof.
  intros w D N P. destruct (number_runs _ D N P) as [_ Z]. change (lit "0" ++ w) with (48%N :: w). unfold pieces. rewrite Z. reflexivity.
Qed.
Lemma zero_tok : forall w, word_tok (lit "0" ++ w) = TAtom (ANum (lit "0" ++ w)).
Proof. intros w. change (lit "0" ++ w) with (48%N :: w). reflexivity. Qed.
Lemma one_word : forall z, pieces z = Some [(RWord, z)] -> word_tok z = TAtom (ANum z) -> text_tokens (show [TAtom (ANum z)]) [TAtom (ANum z)] /\ breaks_enclosed (show [TAtom (ANum z)]).
Proof.
  intros z P W. assert (E : show [TAtom (ANum z)] = z) by (cbn [show tok_text show_from atom_text]; apply app_nil_r). rewrite E. split.
  - exists [(TAtom (ANum z), (0, blen z))]. split; [|reflexivity]. unfold tokens. rewrite P. cbn [place_pieces filter visible arrange Nat.add]. rewrite W. reflexivity.
  - exists [(RWord, z)]. split; [exact P|reflexivity].
Qed.

(** ** In the file *)
Lemma number_written : forall t j fs w x y, written t j fs (EAtom (ANum w)) x y ->
  exists A C, t = A ++ w ++ C /\ blen A = x /\ blen (A ++ w) = y /\ pieces w = Some [(RWord, w)] /\ number w = true.
Proof.
  intros t j fs w x y (p & before & first & more & last & after & T & R & N & Eb & Em & Ex & (l & El) & Ey).
  assert (Pt : exists ps, pieces t = Some ps) by (unfold tokens in T; destruct (pieces t); [eauto|discriminate]). destruct Pt as [ps Pt].
  destruct first as [k s]. cbn [toks map fst] in Em. destruct more as [|q more]; [|discriminate Em]. assert (k = TAtom (ANum w)) by (injection Em; auto). subst k.
  destruct l as [|q l]; [|destruct l; discriminate El]. cbn [app] in El. assert (last = (TAtom (ANum w), s)) by (injection El; auto). subst last. cbn [snd] in Ex, Ey.
  destruct (token_num _ _ _ w s Pt T) as [I Nw]; [apply in_or_app; right; left; reflexivity|]. destruct s as [a b]. cbn [fst snd] in *. subst a b.
  destruct (place_starts _ _ _ _ _ _ I) as (P & Q & Eps & La). pose proof (place_len _ _ _ _ _ _ I) as Lb.
  subst ps. change ((RWord, w) :: Q) with ([(RWord, w)] ++ Q) in Pt. destruct (pieces_split _ _ _ Pt) as (H1 & H2 & H3). destruct (pieces_split _ _ _ H2) as (H4 & H5 & H6).
  assert (Fw : flat [(RWord, w)] = w) by (unfold flat; cbn [map snd concat]; apply app_nil_r). rewrite Fw in H4, H6.
  exists (flat P), (flat Q). rewrite H6 in H3. split; [exact H3|]. split; [cbn [Nat.add] in La; congruence|]. split; [rewrite blen_app; cbn [Nat.add] in La; lia|]. auto.
Qed.
(** It can be written with a zero. *)
Lemma zero_starts : forall A w, dotted w = true -> starts_well A w (lit "0" ++ w).
Proof.
  intros A w D. destruct (is_dotted _ D) as (r & ->). exists 48%N, (46%N :: r). split; [reflexivity|]. split; [reflexivity|]. left. exists 46%N, r. split; [reflexivity|]. right. split; reflexivity.
Qed.
Lemma zero_ends : forall A w C j fs e, written (A ++ w ++ C) j fs e (blen A) (blen (A ++ w)) -> dotted w = true -> number w = true -> pieces w = Some [(RWord, w)] ->
  ends_well (lit "0" ++ w) C.
Proof.
  intros A w C j fs e W D N P. exists [], RWord, (lit "0" ++ w). split; [exact (zero_pieces _ D N P)|]. right; right. split; [reflexivity|].
  destruct C as [|c C]; [left; reflexivity|]. right. exists c, C. split; [reflexivity|].
  destruct (written_cuts _ _ _ _ _ _ W) as (PA & PB & PC & QA & QB & QC & Q & NB).
  assert (Ap : apart w (c :: C)).
  { exists PB, PC. split; [exact QB|]. split; [exact QC|]. destruct (pieces_split _ _ _ Q) as (_ & Z & F). rewrite (pieces_concat _ _ QA) in F. apply app_inv_head in F. rewrite <- F in Z. exact Z. }
  apply apart_stops in Ap. destruct (number_runs _ D N P) as [R _]. rewrite R in Ap. cbn [snd] in Ap. destruct Ap as [Ap|(p & E & _)]; [discriminate|]. cbn [lex_step] in E.
  destruct (is_dotted _ D) as (r & Ew).
  destruct (word_char c) eqn:Wc; [discriminate E|]. cbn [orb] in E. split; [reflexivity|]. split.
  - intros _. rewrite Ew. split; discriminate.
  - intros I. change (lit "0" ++ w) with (48%N :: w). rewrite zero_exponent; [|rewrite Ew; reflexivity|right; exact N].
    destruct (exponent w); [|reflexivity]. exfalso. assert (Sg : ceqb c 43%N || ceqb c 45%N = true) by (destruct I as [<-|[<-|[]]]; reflexivity). rewrite Sg in E. discriminate E.
Qed.
Lemma zero_replaceable : forall fs w, dotted w = true -> replaceable decimals fs (EAtom (ANum w)) (EAtom (ANum (lit "0" ++ w))).
Proof.
  intros fs w D. apply fits_replaceable; [apply fits_primary; [reflexivity|exact Logic.I]|]. intros I Hd. destruct (is_dotted _ D) as (r & ->). split; [|split; [|split]].
  - specialize (Hd r). change (lit "." ++ r) with (46%N :: r) in Hd. change (lit "0." ++ r) with (lit "0" ++ 46%N :: r) in Hd. 
    assert (E : forall v, eval I (EAtom (ANum v)) = cret I (VNum [Some (nlit I v)])) by reflexivity. rewrite !E, Hd. intros s. reflexivity.
  - intros _ op v s. reflexivity.
  - intros _. reflexivity.
  - intros _ c s. reflexivity.
Qed.
Definition zero_edit (j : nat) (fs : list frame) (w : text) (x y : nat) : edit :=
  mk_edit j fs (EAtom (ANum w)) (EAtom (ANum (lit "0" ++ w))) (mk_fix (lit "0" ++ w) x y false).
Lemma zero_edit_ok : forall t j fs w x y, dotted w = true -> written t j fs (EAtom (ANum w)) x y -> edit_ok decimals t (zero_edit j fs w x y).
Proof.
  intros t j fs w x y D W. destruct (number_written _ _ _ _ _ _ W) as (A & C & Et & LA & LB & P & N). unfold edit_ok. cbn [zero_edit e_stmt e_frames e_old e_new e_fix f_start f_end f_content].
  split; [exact W|]. destruct (one_word _ (zero_pieces _ D N P) (zero_tok w)) as [O1 O2].
  assert (E : show [TAtom (ANum (lit "0" ++ w))] = lit "0" ++ w) by (cbn [show tok_text show_from atom_text]; apply app_nil_r). rewrite E in O1, O2.
  split; [exact O1|]. split; [exact O2|]. split; [|exact (zero_replaceable _ _ D)].
  exists A, w, C. split; [exact Et|]. split; [exact LA|]. split; [exact LB|]. split; [exact (zero_starts _ _ D)|].
  rewrite Et, <- LA, <- LB in W. exact (zero_ends _ _ _ _ _ _ W D N P).
Qed.
Lemma zero_neutral : forall t j fs w x y, dotted w = true -> written t j fs (EAtom (ANum w)) x y -> byte_neutral t (mk_fix (lit "0" ++ w) x y false).
Proof.
  intros t j fs w x y D W old H. destruct (number_written _ _ _ _ _ _ W) as (A & C & Et & LA & LB & P & N). cbn [f_start f_end f_content] in *.
  apply bslice_iff in H. destruct H as (a & c & E & La & Lb). 
  assert (old = w) as ->.
  { rewrite Et in E. destruct (blen_prefix _ _ _ _ E) as [_ E1]; [congruence|]. destruct (blen_prefix _ _ _ _ E1) as [E2 _]; [|congruence].
    rewrite blen_app in *. lia. }
  change (lit "0" ++ w) with (48%N :: w). cbn [length blen]. change (u8len 48%N) with 1. lia.
Qed.
