(** The line scanner finds exactly the definitions (C21, C22). *)
From Verif Require Import Model.Text Model.Base Model.Cli Model.Package Spec.PackageSpec.
From Verif Require Import Proofs.TextProofs Proofs.SplitProofs Proofs.RmdProofs.

Lemma span_spec f t : let '(a, b) := span f t in
  t = a ++ b /\ Forall (fun c => f c = true) a /\ (forall c r, b = c :: r -> f c = false).
Proof.
  induction t as [|c t IH]; simpl.
  - repeat split; auto. discriminate.
  - destruct (f c) eqn:E.
    + destruct (span f t) as [a b]. destruct IH as (-> & F & H). repeat split; auto.
    + repeat split; auto. intros ? ? [= <- _]. auto.
Qed.
Lemma span_app f a b : Forall (fun c => f c = true) a -> (forall c r, b = c :: r -> f c = false) ->
  span f (a ++ b) = (a, b).
Proof.
  induction 1 as [|c a Hc _ IH]; intros H; simpl.
  - destruct b as [|c r]; simpl; auto. now rewrite (H c r eq_refl).
  - now rewrite Hc, IH.
Qed.
Lemma dot_or_us_iff c : dot_or_us c = true <-> c = 46%N \/ c = 95%N.
Proof. unfold dot_or_us. now rewrite orb_true_iff, !N.eqb_eq. Qed.

(** ** Lines *)
Lemma split_incl_line' a b : ~ In nl a -> split_incl (a ++ nl :: b) = (a ++ [nl]) :: split_incl b.
Proof.
  induction a as [|c a IH]; intros H; simpl; auto.
  destruct (N.eqb c nl) eqn:E; [apply N.eqb_eq in E; exfalso; apply H; now left|].
  rewrite IH; auto. intros I. apply H. now right.
Qed.
Lemma split_incl_app p b : split_incl ((p ++ [nl]) ++ b) = split_incl (p ++ [nl]) ++ split_incl b.
Proof.
  induction p as [|c p IH]; simpl; auto. destruct (N.eqb c nl); simpl; [now rewrite IH|].
  rewrite IH. destruct (split_incl (p ++ [nl])) as [|x xs] eqn:E; auto.
  exfalso. destruct p as [|y p]; simpl in E; [discriminate|].
  destruct (N.eqb y nl); [discriminate|]. destruct (split_incl (p ++ [nl])); discriminate.
Qed.
Lemma split_incl_at pre b : at_line_start pre -> split_incl (pre ++ b) = split_incl pre ++ split_incl b.
Proof. intros [->|[p ->]]; auto. apply split_incl_app. Qed.
Lemma newlines_app a b : length (filter (N.eqb nl) (a ++ b)) = length (filter (N.eqb nl) a) + length (filter (N.eqb nl) b).
Proof. rewrite filter_app. apply app_length. Qed.
Lemma newlines_none a : ~ In nl a -> filter (N.eqb nl) a = [].
Proof.
  induction a as [|c a IH]; intros H; cbn [filter]; auto.
  destruct (N.eqb nl c) eqn:E.
  - apply N.eqb_eq in E. exfalso; apply H; now left.
  - apply IH. intros I. apply H. now right.
Qed.
Lemma split_incl_at_len pre : at_line_start pre -> length (split_incl pre) = length (filter (N.eqb nl) pre).
Proof.
  intros [->|[p ->]]; auto. induction p as [|c p IH]; auto.
  cbn [app split_incl filter]. rewrite (N.eqb_sym nl c). destruct (N.eqb c nl) eqn:E; cbn [length].
  - now rewrite IH.
  - rewrite <- IH. destruct (split_incl (p ++ [nl])) eqn:E2; auto.
    exfalso. destruct p as [|y p]; cbn [app split_incl] in E2; [discriminate|].
    destruct (N.eqb y nl); [discriminate|]. destruct (split_incl (p ++ [nl])); discriminate.
Qed.
Lemma lines_ok_pre ls1 l ls2 : lines_ok (ls1 ++ l :: ls2) ->
  at_line_start (concat ls1) /\ length (filter (N.eqb nl) (concat ls1)) = length ls1 /\
  (exists a, ~ In nl a /\ (l = a ++ [nl] \/ l = a /\ ls2 = [])) /\ l <> [].
Proof.
  induction ls1 as [|m ls1 IH]; simpl app; intros H.
  - split; [now left|]. split; auto. destruct ls2 as [|n ls2].
    + destruct H as (Hn & a & Ha & [->|E]); split; auto; exists a; auto.
    + destruct H as ((a & Ha & ->) & _). split; [eauto|]. now destruct a.
  - assert (H' : (exists a, ~ In nl a /\ m = a ++ [nl]) /\ lines_ok (ls1 ++ l :: ls2)).
    { simpl in H. destruct (ls1 ++ l :: ls2) eqn:E; auto. destruct ls1; discriminate. }
    destruct H' as ((a & Ha & ->) & H'). destruct (IH H') as (I1 & I2 & I3). split; [|split; auto].
    + simpl. destruct I1 as [->|[p ->]]; right; [exists a; now rewrite app_nil_r|].
      exists ((a ++ [nl]) ++ p). now rewrite app_assoc.
    + simpl. rewrite !newlines_app, I2, newlines_none by auto. reflexivity.
Qed.
Lemma split_incl_pre content ls1 l ls2 : split_incl content = ls1 ++ l :: ls2 ->
  content = concat ls1 ++ l ++ concat ls2 /\
  at_line_start (concat ls1) /\ length (filter (N.eqb nl) (concat ls1)) = length ls1 /\
  (exists a, ~ In nl a /\ (l = a ++ [nl] \/ l = a /\ ls2 = [])) /\ l <> [].
Proof.
  intros E. split.
  - rewrite <- (split_incl_concat content), E, concat_app. reflexivity.
  - apply (lines_ok_pre ls1 l ls2). rewrite <- E. apply split_incl_ok.
Qed.
(** The line that begins after [pre]. *)
Lemma split_incl_first X : X <> [] -> exists a post l ls2, X = a ++ post /\ ~ In nl a /\
  split_incl X = l :: ls2 /\ (l = a /\ post = [] \/ l = a ++ [nl] /\ exists b, post = nl :: b).
Proof.
  intros H. destruct (find_char nl X) as [[a b]|] eqn:E.
  - apply find_char_some in E as (-> & Ha). exists a, (nl :: b), (a ++ [nl]), (split_incl b).
    repeat split; auto. { now apply split_incl_line'. } right. split; auto. eauto.
  - apply find_char_none in E. exists X, [], X, []. rewrite app_nil_r. repeat split; auto.
    destruct (split_incl X) as [|l ls2] eqn:S.
    + pose proof (split_incl_concat X) as C. rewrite S in C. simpl in C. congruence.
    + destruct (split_incl_pre X [] l ls2 S) as (C & _ & _ & (a & Ha & [->|(-> & ->)]) & _).
      * exfalso. apply E. rewrite C. simpl. rewrite !in_app_iff. simpl. auto.
      * simpl in C. rewrite app_nil_r in C. now subst.
Qed.

(** ** Stripping the line terminator *)
Lemma drop_while_spec x t : exists n, t = repeat x n ++ drop_while x t /\ (forall r, drop_while x t <> x :: r).
Proof.
  induction t as [|c t IH]; simpl; [exists 0; split; auto; discriminate|].
  destruct (N.eqb c x) eqn:E.
  - apply N.eqb_eq in E. subst. destruct IH as (n & E & H). exists (S n). simpl. now rewrite <- E.
  - exists 0. split; auto. intros r [= -> _]. rewrite N.eqb_refl in E. discriminate.
Qed.
Lemma rev_repeat {A} (x : A) n : rev (repeat x n) = repeat x n.
Proof. induction n; simpl; auto. rewrite IHn. clear. induction n; simpl; auto. now rewrite IHn at 1. Qed.
Lemma trim_end_matches_spec x t : exists n, t = trim_end_matches x t ++ repeat x n /\
  (forall r, trim_end_matches x t <> r ++ [x]).
Proof.
  unfold trim_end_matches. destruct (drop_while_spec x (rev t)) as (n & E & H). exists n. split.
  - apply (f_equal (@rev _)) in E. rewrite rev_involutive, rev_app_distr, rev_repeat in E. exact E.
  - intros r Er. apply (f_equal (@rev _)) in Er. rewrite rev_involutive, rev_app_distr in Er. simpl in Er.
    now apply H in Er.
Qed.
Lemma trim_end_matches_no x t : ~ In x t -> trim_end_matches x t = t.
Proof.
  intros H. destruct (trim_end_matches_spec x t) as (n & E & _). destruct n; [simpl in E; now rewrite app_nil_r in E|].
  exfalso. apply H. rewrite E. apply in_or_app. right. now left.
Qed.
Lemma trim_end_matches_snoc x t : trim_end_matches x (t ++ [x]) = trim_end_matches x t.
Proof. unfold trim_end_matches. rewrite rev_app_distr. simpl. now rewrite N.eqb_refl. Qed.
Lemma strip_eol_spec a l : ~ In nl a -> (l = a ++ [nl] \/ l = a) ->
  exists n, a = strip_eol l ++ repeat 13%N n /\ ~ In nl (strip_eol l).
Proof.
  intros Ha Hl. assert (E : strip_eol l = trim_end_matches 13%N a).
  { unfold strip_eol. destruct Hl as [->| ->]; [rewrite trim_end_matches_snoc|]; now rewrite (trim_end_matches_no nl a). }
  rewrite E. destruct (trim_end_matches_spec 13%N a) as (n & En & _). exists n. split; auto.
  intros I. apply Ha. rewrite En. apply in_or_app. now left.
Qed.

Section Scan.
Variable ia : char -> bool.
Hypothesis U : unicode_alnum ia.

Lemma ident_iff c : ident_char ia c = true <-> name_char ia c.
Proof. unfold ident_char, name_char. now rewrite orb_true_iff, dot_or_us_iff. Qed.
Lemma ident_not c : ident_char ia c = false <-> ~ name_char ia c.
Proof. rewrite <- ident_iff. destruct (ident_char ia c); split; congruence. Qed.
Lemma ws_not_ident c : is_ws c = true -> ident_char ia c = false.
Proof.
  intros H. destruct U as (_ & Uw). unfold ident_char. rewrite (Uw c H). simpl.
  destruct (dot_or_us c) eqn:E; auto. apply dot_or_us_iff in E as [-> | ->]; discriminate.
Qed.
Lemma ascii_ident c : (c < 128)%N -> ident_char ia c = word_char c.
Proof. intros H. destruct U as (Ua & _). unfold ident_char, word_char. now rewrite Ua. Qed.

Lemma forallb_ws_blank w : forallb is_ws w = true -> ~ In nl w -> Forall blank w.
Proof.
  intros H N. rewrite forallb_forall in H. apply Forall_forall. intros c Hc. split; auto.
  intros ->. auto.
Qed.
Lemma blank_ws w : Forall blank w -> forallb is_ws w = true.
Proof. intros H. apply forallb_forall. intros c Hc. rewrite Forall_forall in H. now apply H. Qed.

Lemma starts_function_iff rhs : starts_function ia rhs = true <-> fun_start ia rhs.
Proof.
  unfold starts_function, fun_start. rewrite orb_true_iff. split.
  - intros [H|H].
    + right. destruct (strip_prefix (lit "function") rhs) as [r|] eqn:E; [|discriminate].
      apply strip_prefix_iff in E. exists r. split; auto. intros c r' ->.
      apply negb_true_iff in H. now apply ident_not.
    + left. destruct rhs as [|c r]; [discriminate|]. apply N.eqb_eq in H. subst. eauto.
  - intros [[r ->]|(r & -> & H)].
    + right. reflexivity.
    + left. rewrite strip_prefix_app. destruct r as [|c r]; auto. apply negb_true_iff, ident_not. eauto.
Qed.
Lemma fun_start_head rhs : fun_start ia rhs -> exists c r, rhs = c :: r /\ is_ws c = false /\ c <> 61%N /\ c <> 45%N.
Proof.
  intros [[r ->]|(r & -> & H)].
  - exists 92%N, r. repeat split; discriminate.
  - exists 102%N, (lit "unction" ++ r). repeat split; discriminate.
Qed.

(** The operator, on a text that does not begin with white space. *)
Lemma assigned_head rest : assigned ia rest -> forall c r, rest = c :: r -> ident_char ia c = false.
Proof.
  intros (ws1 & op & ws2 & rhs & -> & B1 & B2 & Ho & Hf) c r E.
  destruct ws1 as [|w ws1].
  - simpl in E. assert (C : c = 60%N \/ c = 61%N).
    { destruct Ho as [-> | ->]; simpl in E; injection E; auto. }
    destruct C as [-> | ->]; rewrite ascii_ident by lia; reflexivity.
  - injection E as -> _. inversion B1 as [|? ? [W _] _]; subst. now apply ws_not_ident.
Qed.

(** [line] has no newline; what follows the line is irrelevant. *)
Lemma scan_line_iff line name : ~ In nl line ->
  scan_line ia line = Some name <->
  name <> [] /\ Forall (name_char ia) name /\ exists rest, line = name ++ rest /\ assigned ia rest.
Proof.
  intros NL. split.
  - unfold scan_line. destruct line as [|c line']; [discriminate|].
    set (line := c :: line') in *. destruct (is_ws c || N.eqb c 35%N) eqn:W; [discriminate|].
    pose proof (span_spec (ident_char ia) line) as S. destruct (span (ident_char ia) line) as [nm after].
    destruct S as (E & F & H). destruct nm as [|x nm]; [discriminate|]. set (nm' := x :: nm) in *.
    destruct (trim_start_spec after) as (ws1 & E1 & B1). set (ai := trim_start after) in *.
    assert (NLa : ~ In nl after) by (intros I; apply NL; rewrite E; apply in_or_app; auto).
    assert (BB : Forall blank ws1).
    { apply forallb_ws_blank; auto. intros I. apply NLa. rewrite E1. apply in_or_app; auto. }
    assert (Fn : Forall (name_char ia) nm') by (eapply Forall_impl; [|exact F]; intros; now apply ident_iff).
    assert (K : forall op r, ai = op ++ r -> (op = lit "<-" \/ op = lit "=") -> starts_function ia (trim_start r) = true ->
      nm' <> [] /\ Forall (name_char ia) nm' /\ exists rest, line = nm' ++ rest /\ assigned ia rest).
    { intros op r Er Ho Hs. split; [discriminate|]. split; auto. exists after. split; auto.
      destruct (trim_start_spec r) as (ws2 & E2 & B2).
      exists ws1, op, ws2, (trim_start r). rewrite <- E2, <- Er. repeat split; auto.
      - apply forallb_ws_blank; auto. intros I. apply NLa. rewrite E1, Er, E2. rewrite !in_app_iff. auto.
      - now apply starts_function_iff. }
    destruct (strip_prefix (lit "<-") ai) as [r|] eqn:P.
    + apply strip_prefix_iff in P. destruct (starts_function ia (trim_start r)) eqn:Hs; [|discriminate].
      intros [= <-]. eapply K; eauto.
    + destruct ai as [|y r] eqn:Ea; [discriminate|].
      destruct (N.eq_dec y 61) as [->|Ny].
      * assert (Hr : (match r with 61%N :: _ => None | _ => Some (trim_start r) end) = Some (trim_start r) \/
                     (match r with 61%N :: _ => None | _ => Some (trim_start r) end) = (None : option text)).
        { destruct r as [|z r']; auto. destruct (N.eq_dec z 61) as [->|]; auto.
          left. destruct z as [|p]; auto. do 6 (try (destruct p as [p|p|]; auto)). congruence. }
        simpl. destruct Hr as [-> | ->]; [|discriminate].
        destruct (starts_function ia (trim_start r)) eqn:Hs; [|discriminate].
        intros [= <-]. eapply (K (lit "=") r); eauto.
      * assert (E0 : (match y with 61%N => match r with 61%N :: _ => None | _ => Some (trim_start r) end | _ => None end) = (None : option text)).
        { destruct y as [|p]; auto. do 6 (try (destruct p as [p|p|]; auto)). congruence. }
        rewrite E0. discriminate.
  - intros (Hn & F & rest & -> & A). unfold scan_line.
    destruct name as [|c name]; [congruence|]. set (nm := c :: name) in *.
    change (nm ++ rest) with (c :: name ++ rest) at 1. cbv iota.
    assert (Hc : name_char ia c) by (inversion F; auto).
    assert (W : is_ws c || N.eqb c 35%N = false).
    { apply orb_false_iff. split.
      - destruct (is_ws c) eqn:E; auto. apply ws_not_ident in E. apply ident_iff in Hc. congruence.
      - apply N.eqb_neq. intros ->. apply ident_iff in Hc. rewrite ascii_ident in Hc by lia. discriminate. }
    rewrite W.
    rewrite span_app; [|eapply Forall_impl; [|exact F]; intros; now apply ident_iff|now apply assigned_head].
    change (match nm with [] => None | _ => ?x end) with x.
    destruct A as (ws1 & op & ws2 & rhs & -> & B1 & B2 & Ho & Hf).
    rewrite trim_start_ws by now apply blank_ws.
    destruct (fun_start_head rhs Hf) as (h & t & Eh & Wh & N1 & N2).
    assert (T : trim_start (ws2 ++ rhs) = rhs).
    { rewrite trim_start_ws by now apply blank_ws. subst rhs. now apply trim_start_id. }
    assert (Sf : starts_function ia rhs = true) by now apply starts_function_iff.
    destruct Ho as [-> | ->].
    + change (trim_start (lit "<-" ++ ws2 ++ rhs)) with (lit "<-" ++ ws2 ++ rhs).
      rewrite strip_prefix_app, T, Sf. reflexivity.
    + change (trim_start (lit "=" ++ ws2 ++ rhs)) with (61%N :: ws2 ++ rhs).
      change (strip_prefix (lit "<-") (61%N :: ws2 ++ rhs)) with (@None text). cbv iota beta.
      assert (E0 : (match ws2 ++ rhs with 61%N :: _ => None | _ => Some (trim_start (ws2 ++ rhs)) end) = Some rhs).
      { rewrite T. destruct (ws2 ++ rhs) as [|z q] eqn:E; auto. assert (z <> 61%N).
        { intros ->. destruct ws2 as [|w ws2]; simpl in E.
          - rewrite Eh in E. injection E as E1 _. congruence.
          - injection E as -> _. inversion B2 as [|? ? [W2 _] _]; subst. discriminate. }
        destruct z as [|p]; auto. do 6 (try (destruct p as [p|p|]; auto)). congruence. }
      rewrite E0, Sf. reflexivity.
Qed.

(** The end of the line does not matter. *)
Lemma app_suffix (x r a tl : text) (c : char) : x ++ c :: r = a ++ tl -> forallb is_ws tl = true -> is_ws c = false ->
  exists r', r = r' ++ tl /\ a = x ++ c :: r'.
Proof.
  revert a; induction x as [|y x IH]; intros a E W Hc; simpl in E.
  - destruct a as [|z a].
    + simpl in E. subst tl. simpl in W. rewrite Hc in W. discriminate.
    + injection E as -> ->. exists a. auto.
  - destruct a as [|z a].
    + simpl in E. subst tl. exfalso. rewrite forallb_forall in W. rewrite W in Hc; [discriminate|].
      right. apply in_or_app. right. now left.
    + injection E as -> E. destruct (IH a E W Hc) as (r' & -> & ->). exists r'. auto.
Qed.
Lemma fun_start_cut rhs : fun_start ia rhs <-> exists x c r, rhs = x ++ c :: r /\ is_ws c = false /\
  (x = [] /\ c = 92%N \/ x = lit "functio" /\ c = 110%N /\ forall d r', r = d :: r' -> ident_char ia d = false).
Proof.
  split.
  - intros [[r ->]|(r & -> & H)].
    + exists [], 92%N, r. auto.
    + exists (lit "functio"), 110%N, r. repeat split; auto. right. repeat split; auto.
      intros d r' E. apply ident_not. eauto.
  - intros (x & c & r & -> & _ & [(-> & ->)|(-> & -> & H)]).
    + left. now exists r.
    + right. exists r. split; auto. intros d r' E. apply ident_not. eauto.
Qed.
Definition open_end (t : text) : Prop := forall c r, t = c :: r -> ident_char ia c = false.
Lemma assigned_more rest tl : assigned ia rest -> open_end tl -> assigned ia (rest ++ tl).
Proof.
  intros (ws1 & op & ws2 & rhs & -> & B1 & B2 & Ho & Hf) T.
  exists ws1, op, ws2, (rhs ++ tl). rewrite <- !app_assoc. repeat split; auto.
  destruct Hf as [[r ->]|(r & -> & H)].
  - left. now exists (r ++ tl).
  - right. exists (r ++ tl). split; [now rewrite <- app_assoc|]. intros c r' E. destruct r as [|d r].
    + apply ident_not. eapply T, E.
    + injection E as -> _. eauto.
Qed.
Lemma assigned_less X rest a tl : assigned ia rest -> forallb is_ws tl = true -> X ++ rest = a ++ tl ->
  exists rest', a = X ++ rest' /\ assigned ia rest'.
Proof.
  intros (ws1 & op & ws2 & rhs & -> & B1 & B2 & Ho & Hf) W E.
  apply fun_start_cut in Hf as (x & c & r & -> & Hc & Hx).
  rewrite !app_assoc in E. rewrite <- (app_assoc _ x (c :: r)) in E. rewrite app_assoc in E.
  destruct (app_suffix _ _ _ _ _ E W Hc) as (r' & -> & ->).
  exists (ws1 ++ op ++ ws2 ++ x ++ c :: r'). split; [now rewrite <- !app_assoc|].
  exists ws1, op, ws2, (x ++ c :: r'). repeat split; auto. apply fun_start_cut. exists x, c, r'. repeat split; auto.
  destruct Hx as [Hx|(-> & -> & Hx)]; auto. right. repeat split; auto. intros d q ->. eapply Hx. reflexivity.
Qed.
(** The line [a] (whole or cut anywhere after a newline) defines [name]. *)
Definition line_defines (name a : text) : Prop :=
  name <> [] /\ Forall (name_char ia) name /\ exists rest, a = name ++ rest /\ assigned ia rest.
Lemma ws_open tl : forallb is_ws tl = true -> open_end tl.
Proof. intros H c r ->. simpl in H. apply andb_true_iff in H as (H & _). now apply ws_not_ident. Qed.
Lemma line_defines_ws name a tl : forallb is_ws tl = true -> line_defines name (a ++ tl) <-> line_defines name a.
Proof.
  intros W. split; intros (Hn & F & rest & E & A); (split; [auto|split; auto]).
  - symmetry in E. destruct (assigned_less _ _ _ _ A W E) as (r & -> & A'). eauto.
  - subst a. exists (rest ++ tl). split; [now rewrite app_assoc|]. apply assigned_more; auto. now apply ws_open.
Qed.
Lemma repeat_cr_ws n : forallb is_ws (repeat 13%N n) = true.
Proof. induction n; simpl; auto. Qed.
Lemma scan_strip a l name : ~ In nl a -> (l = a ++ [nl] \/ l = a) ->
  scan_line ia (strip_eol l) = Some name <-> line_defines name a.
Proof.
  intros Ha Hl. destruct (strip_eol_spec a l Ha Hl) as (n & E & N).
  rewrite scan_line_iff by auto. rewrite E. symmetry. apply line_defines_ws, repeat_cr_ws.
Qed.
(** Nothing after the first newline matters. *)
Lemma assigned_upto rest b : assigned ia (rest ++ nl :: b) -> ~ In nl rest -> assigned ia rest.
Proof.
  intros (ws1 & op & ws2 & rhs & E & B1 & B2 & Ho & Hf) N.
  apply fun_start_cut in Hf as (x & c & r & -> & Hc & Hx).
  assert (Nx : ~ In nl (ws1 ++ op ++ ws2 ++ x ++ [c])).
  { assert (Nb : forall w, Forall blank w -> ~ In nl w).
    { intros w F I. rewrite Forall_forall in F. destruct (F _ I) as (_ & K). congruence. }
    rewrite !in_app_iff. intros [I|[I|[I|[I|[I|[]]]]]].
    - now apply (Nb ws1).
    - destruct Ho as [-> | ->]; simpl in I; repeat (destruct I as [I|I]; [discriminate|]); auto.
    - now apply (Nb ws2).
    - destruct Hx as [(-> & _)|(-> & _)]; simpl in I; repeat (destruct I as [I|I]; [discriminate|]); auto.
    - subst c. discriminate. }
  assert (E' : rest ++ nl :: b = (ws1 ++ op ++ ws2 ++ x ++ [c]) ++ r) by (rewrite E, <- !app_assoc; reflexivity).
  assert (K : exists r', rest = (ws1 ++ op ++ ws2 ++ x ++ [c]) ++ r' /\ r = r' ++ nl :: b).
  { revert E' Nx N. generalize (ws1 ++ op ++ ws2 ++ x ++ [c]). clear. intros p. revert rest.
    induction p as [|y p IH]; intros rest E Np Nr; simpl in *.
    - exists rest. auto.
    - destruct rest as [|z rest]; simpl in E; injection E as Ey E.
      + exfalso. apply Np. now left.
      + subst z. destruct (IH rest E) as (r' & -> & ->); [intuition|intuition|]. exists r'. auto. }
  destruct K as (r' & -> & ->).
  exists ws1, op, ws2, (x ++ c :: r'). repeat split; auto. { rewrite <- !app_assoc. reflexivity. }
  apply fun_start_cut. exists x, c, r'. repeat split; auto.
  destruct Hx as [Hx|(-> & -> & Hx)]; auto. right. repeat split; auto. intros d q ->. eapply Hx. reflexivity.
Qed.
Lemma line_defines_nl name a b : ~ In nl a -> line_defines name (a ++ nl :: b) <-> line_defines name a.
Proof.
  intros Na. split; intros (Hn & F & rest & E & A); (split; [auto|split; auto]).
  - assert (Nn : ~ In nl name).
    { intros I. rewrite Forall_forall in F. apply F, ident_iff in I. discriminate (eq_trans (eq_sym I) (ws_not_ident nl eq_refl)). }
    assert (K : exists r', a = name ++ r' /\ rest = r' ++ nl :: b).
    { revert E Nn Na. clear. revert a. induction name as [|y p IH]; intros a E Np Nr; simpl in *.
      - exists a. auto.
      - destruct a as [|z a]; simpl in E; injection E as Ey E.
        + exfalso. apply Np. now left.
        + subst z. destruct (IH a E) as (r' & -> & ->); [intuition|intuition|]. exists r'. auto. }
    destruct K as (r' & -> & ->). exists r'. split; auto. eapply assigned_upto; eauto.
    intros I. apply Na, in_or_app. now right.
  - subst a. exists (rest ++ nl :: b). split; [now rewrite app_assoc|]. apply assigned_more; auto.
    intros c r [= <- _]. now apply ws_not_ident.
Qed.

Lemma scan_from_iff ls : forall off n d, In d (scan_from ia off n ls) <->
  exists ls1 l ls2, ls = ls1 ++ l :: ls2 /\ scan_line ia (strip_eol l) = Some (ad_name d) /\
    ad_start d = off + blen (concat ls1) /\ ad_line d = n + length ls1 /\ ad_end d = ad_start d + blen (ad_name d).
Proof.
  induction ls as [|l ls IH]; intros off n d; simpl.
  - split; [tauto|]. intros ([|] & ? & ? & E & _); discriminate.
  - assert (K : In d (scan_from ia (off + blen l) (n + 1) ls) <->
      exists ls1 m ls2, ls = ls1 ++ m :: ls2 /\ scan_line ia (strip_eol m) = Some (ad_name d) /\
      ad_start d = off + blen (concat (l :: ls1)) /\ ad_line d = n + length (l :: ls1) /\ ad_end d = ad_start d + blen (ad_name d)).
    { rewrite IH. split; intros (ls1 & m & ls2 & H1 & H2 & H3 & H4 & H5); exists ls1, m, ls2;
        simpl in *; rewrite blen_app in *; repeat split; auto; lia. }
    transitivity ((scan_line ia (strip_eol l) = Some (ad_name d) /\ ad_start d = off /\ ad_line d = n /\
                   ad_end d = ad_start d + blen (ad_name d)) \/ In d (scan_from ia (off + blen l) (n + 1) ls)).
    + destruct (scan_line ia (strip_eol l)) as [nm|].
      * simpl. split; intros [H|H]; auto.
        -- left. subst d. simpl. auto.
        -- left. destruct d as [a b c e]. simpl in H. destruct H as ([= ->] & -> & -> & ->). reflexivity.
      * split; auto. intros [(H & _)|H]; auto. discriminate.
    + rewrite K. split.
      * intros [(H1 & H2 & H3 & H4)|(ls1 & m & ls2 & H1 & H2 & H3 & H4 & H5)].
        -- exists [], l, ls. simpl. repeat split; auto; lia.
        -- exists (l :: ls1), m, ls2. rewrite H1. repeat split; auto.
      * intros ([|l' ls1] & m & ls2 & E & H2 & H3 & H4 & H5); simpl in E; injection E as -> ->.
        -- left. simpl in *. repeat split; auto; lia.
        -- right. exists ls1, m, ls2. repeat split; auto.
Qed.

Theorem scan_iff content d : In d (scan_top_level_assignments ia content) <->
  defines ia content (ad_name d) (ad_start d) (ad_line d) /\ ad_end d = ad_start d + blen (ad_name d).
Proof.
  unfold scan_top_level_assignments. rewrite scan_from_iff. split.
  - intros (ls1 & l & ls2 & E & S & H1 & H2 & H3). split; auto.
    destruct (split_incl_pre _ _ _ _ E) as (C & L & Q & (a & Na & Hl) & _).
    assert (D : line_defines (ad_name d) a) by (apply (scan_strip a l); auto; destruct Hl as [|[]]; auto).
    assert (D' : line_defines (ad_name d) (l ++ concat ls2)).
    { destruct Hl as [->|(-> & ->)].
      - rewrite <- app_assoc. simpl. now apply line_defines_nl.
      - simpl. now rewrite app_nil_r. }
    destruct D' as (D1 & D2 & rest & D3 & D4). split; auto. split; auto.
    exists (concat ls1), rest. rewrite <- D3, <- C. unfold line_number. repeat split; auto. lia.
  - intros ((D1 & D2 & pre & rest & C & L & A & H1 & H2) & H3).
    assert (X : ad_name d ++ rest <> []) by (destruct (ad_name d); [congruence|discriminate]).
    destruct (split_incl_first _ X) as (a & post & l & ls2 & EX & Na & S & Hl).
    exists (split_incl pre), l, ls2. rewrite C, split_incl_at, S by auto.
    assert (D : line_defines (ad_name d) a).
    { assert (D : line_defines (ad_name d) (a ++ post)) by (rewrite <- EX; repeat split; auto; exists rest; auto).
      destruct Hl as [(_ & ->)|(_ & b & ->)]; [rewrite app_nil_r in D; exact D|exact (proj1 (line_defines_nl _ _ _ Na) D)]. }
    split; auto. split.
    { apply (scan_strip a l); auto. destruct Hl as [(-> & _)|(-> & _)]; auto. }
    rewrite split_incl_concat, split_incl_at_len by auto. unfold line_number in H2. repeat split; auto.
Qed.
End Scan.
