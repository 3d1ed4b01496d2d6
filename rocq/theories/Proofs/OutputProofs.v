(** Reading back what is printed (C92–C94). *)
From Verif Require Import Model.Text Model.Base Model.Rules Model.Output Spec.OutputSpec.
From Verif Require Import Proofs.TextProofs Proofs.RulesProofs Proofs.SplitProofs.
From Verif Require Proofs.DirectiveProofs.

Lemma message_says d : message d = says d.
Proof. unfold message, says. destruct (p_suggestion d); [reflexivity|now rewrite app_nil_r]. Qed.

(** ** Lines *)
Lemma output_lines_cons l t : one_line l -> output_lines (l ++ nl :: t) = l :: output_lines t.
Proof.
  intros H. induction l as [|c l IH]; cbn [app output_lines].
  - now rewrite N.eqb_refl.
  - destruct (N.eqb_spec c nl) as [->|N]; [exfalso; apply H; now left|].
    rewrite IH; auto. intros I. apply H. now right.
Qed.
Lemma output_lines_map {A} (f : A -> text) ds : (forall d, In d ds -> one_line (f d)) ->
  output_lines (concat (map (fun d => f d ++ [nl]) ds)) = map f ds.
Proof.
  induction ds as [|d ds IH]; intros H; cbn [map concat]; auto.
  rewrite <- app_assoc. cbn [app]. rewrite output_lines_cons by (apply H; now left). f_equal. apply IH. intros x I. apply H. now right.
Qed.

(** ** Numbers *)
Lemma decimal_digits n c : In c (decimal n) -> (48 <= c <= 57)%N.
Proof. apply show_chars. Qed.
Lemma decimal_nonempty n : decimal n <> [].
Proof. apply show_nonempty. Qed.
Lemma decimal_inj a b : decimal a = decimal b -> a = b.
Proof.
  intros E. pose proof (digits_val_show (N.to_uint (N.of_nat a))) as A. pose proof (digits_val_show (N.to_uint (N.of_nat b))) as B.
  rewrite DecimalN.Unsigned.of_to in A, B. unfold decimal in E. rewrite E in A. rewrite A in B. injection B as B. lia.
Qed.
Lemma digits_cut a b x y r s :
  (forall c, In c a -> (48 <= c <= 57)%N) -> (forall c, In c b -> (48 <= c <= 57)%N) ->
  ~ (48 <= x <= 57)%N -> ~ (48 <= y <= 57)%N -> a ++ x :: r = b ++ y :: s -> a = b /\ x = y /\ r = s.
Proof.
  revert b. induction a as [|c a IH]; intros [|c' b] A B X Y E; cbn [app] in E.
  - injection E as -> ->. auto.
  - injection E as -> _. exfalso. apply X. apply B. now left.
  - injection E as -> _. exfalso. apply Y. apply A. now left.
  - injection E as -> E. destruct (IH b) as (-> & -> & ->); auto; intros; [apply A|apply B]; now right.
Qed.
Lemma decimal_cut a b x y r s : ~ (48 <= x <= 57)%N -> ~ (48 <= y <= 57)%N ->
  decimal a ++ x :: r = decimal b ++ y :: s -> a = b /\ x = y /\ r = s.
Proof.
  intros X Y E. apply digits_cut in E as (E & -> & ->); auto; try apply decimal_digits. apply decimal_inj in E. auto.
Qed.

(** ** Separators *)
Lemma occurs_cross s a x b : ~ In x s -> s <> [] -> occurs s (a ++ x :: b) -> occurs s a \/ occurs s b.
Proof.
  intros X NE (p & q & E). revert p E. induction a as [|c a IH]; intros p E.
  - right. destruct p as [|y p].
    + destruct s as [|z s]; [congruence|]. cbn in E. injection E as -> _. exfalso. apply X. now left.
    + cbn in E. injection E as _ ->. exists p, q. auto.
  - destruct p as [|y p].
    + (* at the start *)
      left. clear IH. exists []. change ([] ++ s ++ q) with (s ++ q) in E.
      assert (K : exists q', c :: a = s ++ q').
      { revert E. generalize (c :: a). clear -X. intros l. revert l. induction s as [|z s IH]; intros l E.
        - exists l. auto.
        - destruct l as [|w l]; cbn in E; injection E as -> E.
          + exfalso. apply X. now left.
          + destruct (IH (fun I => X (or_intror I)) l E) as (q' & ->). exists q'. auto. }
      destruct K as (q' & K). exists q'. auto.
    + cbn in E. injection E as -> E. destruct (IH p E) as [(p' & q' & ->)|H]; auto.
      left. exists (y :: p'), q'. auto.
Qed.
Lemma no_codes_app codes a x b : (forall s, In s (map fst codes) -> ~ In x s /\ s <> []) ->
  no_codes codes a -> no_codes codes b -> no_codes codes (a ++ x :: b).
Proof. intros X A B s I O. destruct (X s I). apply occurs_cross in O as [O|O]; auto; [now apply (A s)|now apply (B s)]. Qed.
Lemma no_percent codes t : (forall s, In s (map fst codes) -> In 37%N s) -> ~ In 37%N t -> no_codes codes t.
Proof. intros C N s I (a & b & ->). apply N. apply in_or_app. right. apply in_or_app. left. auto. Qed.

Lemma decode_id codes t : no_codes codes t -> decode codes 0 t = t.
Proof.
  induction t as [|c t IH]; intros H; [reflexivity|]. cbn [decode].
  destruct (find _ codes) as [(s, x)|] eqn:F.
  - apply find_some in F as (I & F). cbn [fst] in F. apply starts_with_iff in F as (r & F).
    exfalso. apply (H s); [apply in_map_iff; exists (s, x); auto|]. exists [], r. auto.
  - f_equal. apply IH. intros s I (a & b & E). apply (H s I). exists (c :: a), b. now rewrite E.
Qed.

Lemma cut_first sep a b : sep <> [] ->
  (forall p q, a ++ sep = p ++ sep ++ q -> q = []) -> cut sep (a ++ sep ++ b) = Some (a, b).
Proof.
  intros NE. induction a as [|c a IH]; intros H; cbn [app].
  - assert (S : starts_with sep (sep ++ b) = true) by (apply starts_with_iff; eauto).
    destruct sep as [|x sep]; [congruence|]. cbn [app cut] in *. rewrite S.
    cbn [length skipn]. rewrite skipn_app, skipn_all, Nat.sub_diag. reflexivity.
  - cbn [cut]. destruct (starts_with sep (c :: a ++ sep ++ b)) eqn:S.
    + apply starts_with_iff in S as (r & S). exfalso.
      assert (L : exists q, (c :: a) ++ sep = sep ++ q /\ q <> []).
      { exists (skipn (length sep) ((c :: a) ++ sep)). split.
        - rewrite <- (firstn_skipn (length sep) ((c :: a) ++ sep)) at 1. f_equal.
          assert (F : firstn (length sep) (((c :: a) ++ sep) ++ b) = sep).
          { rewrite <- app_assoc. cbn [app]. rewrite S, firstn_app, firstn_all, Nat.sub_diag. cbn. apply app_nil_r. }
          rewrite firstn_app in F. replace (length sep - length ((c :: a) ++ sep)) with 0 in F by (rewrite app_length; lia).
          cbn [firstn] in F. now rewrite app_nil_r in F.
        - intros Q. assert (X : length (skipn (length sep) ((c :: a) ++ sep)) = 0) by now rewrite Q.
          rewrite skipn_length, app_length in X. cbn [length] in X. lia. }
      destruct L as (q & L & Nq). apply Nq. apply (H [] q). exact L.
    + rewrite IH; auto. intros p q E. apply (H (c :: p) q). cbn [app]. now rewrite E.
Qed.
Lemma cut_char x a b : ~ In x a -> cut [x] (a ++ x :: b) = Some (a, b).
Proof.
  intros N. apply (cut_first [x] a b); [discriminate|]. intros p q E.
  destruct (exists_last (l := [x] ++ q)) as (l & y & E'); [discriminate|].
  destruct q as [|z q]; auto. exfalso.
  destruct (@exists_last _ (z :: q)) as (q' & y' & Q); [discriminate|].
  rewrite Q in E. change ([x] ++ q' ++ [y']) with ((x :: q') ++ [y']) in E. rewrite app_assoc in E.
  apply app_inj_tail in E as (E & _). apply N. rewrite E. apply in_or_app. right. now left.
Qed.
(** A text without double colon that does not end in a colon. *)
Lemma cut_colons a c b : ~ occurs (lit "::") (a ++ [c]) -> c <> 58%N ->
  cut (lit "::") ((a ++ [c]) ++ lit "::" ++ b) = Some (a ++ [c], b).
Proof.
  intros N C. apply cut_first; [discriminate|]. intros p q E.
  destruct q as [|y q]; auto. exfalso.
  destruct (@exists_last _ (y :: q)) as (q' & z & Q); [discriminate|]. rewrite Q in E. clear Q y q.
  change (lit "::") with ([58%N] ++ [58%N]) in E at 1. rewrite !app_assoc in E. apply app_inj_tail in E as (E & _).
  destruct q' as [|y q].
  - rewrite app_nil_r in E. change (lit "::") with ([58%N] ++ [58%N]) in E. rewrite !app_assoc in E.
    apply app_inj_tail in E as (E & _). apply app_inj_tail in E as (_ & E). congruence.
  - destruct (@exists_last _ (y :: q)) as (q' & z' & Q); [discriminate|]. rewrite Q in E. rewrite app_assoc in E.
    apply app_inj_tail in E as (E & _). apply N. exists p, q'. rewrite E, <- app_assoc; reflexivity.
Qed.

(** ** Commands *)
Lemma rule_chars r c : In c (rule_name r) -> c = 95%N \/ (48 <= c <= 57)%N \/ (97 <= c <= 122)%N.
Proof.
  assert (X : forallb (fun r => forallb (fun c => (c =? 95)%N || ((48 <=? c)%N && (c <=? 57)%N) || ((97 <=? c)%N && (c <=? 122)%N)) (rule_name r)) all_rules = true)
    by (vm_compute; reflexivity).
  rewrite forallb_forall in X. specialize (X r (all_rules_complete r)). rewrite forallb_forall in X.
  intros I. specialize (X c I). apply Bool.orb_true_iff in X as [X|X]; [apply Bool.orb_true_iff in X as [X|X]|].
  - apply N.eqb_eq in X. auto.
  - apply andb_prop in X as (X & Y). apply N.leb_le in X, Y. auto.
  - apply andb_prop in X as (X & Y). apply N.leb_le in X, Y. auto.
Qed.
Lemma no_colons t : ~ In 58%N t -> ~ occurs (lit "::") t.
Proof. intros N (a & b & ->). apply N. apply in_or_app. right. now left. Qed.
Lemma decimal_not n c : ~ (48 <= c <= 57)%N -> ~ In c (decimal n).
Proof. intros H I. apply H. now apply (decimal_digits n). Qed.
Lemma rule_not r c : c <> 95%N -> ~ (48 <= c <= 57)%N -> ~ (97 <= c <= 122)%N -> ~ In c (rule_name r).
Proof. intros A B C I. apply rule_chars in I. tauto. Qed.
Ltac not_in :=
  repeat match goal with
  | H : In _ (_ ++ _) |- _ => apply in_app_or in H; destruct H as [H|H]
  | H : In ?c (decimal ?n) |- _ => exfalso; revert H; apply decimal_not; lia
  | H : In ?c (rule_name ?r) |- _ => exfalso; revert H; apply rule_not; lia
  | H : In _ (lit _) |- _ => exfalso; revert H; cbv; intuition discriminate
  | H : In _ (_ :: _) |- _ => destruct H as [H|H]; [discriminate H|]
  | H : In _ [] |- _ => destruct H
  end.

Lemma code_heads codes : codes = data_codes \/ codes = property_codes ->
  forall s, In s (map fst codes) -> In 37%N s /\ s <> [] /\ (forall x, In x s -> x = 37%N \/ (48 <= x <= 57)%N \/ (65 <= x <= 68)%N).
Proof.
  assert (X : forall s, In s (map fst property_codes) -> In 37%N s /\ s <> [] /\ (forall x, In x s -> x = 37%N \/ (48 <= x <= 57)%N \/ (65 <= x <= 68)%N)).
  { intros s I. cbn [map property_codes fst In] in I.
    repeat (destruct I as [<-|I]; [split; [now left|split; [discriminate|]]; intros x X; vm_compute in X; destruct X as [<-|[<-|[<-|[]]]]; lia|]). destruct I. }
  intros [->| ->] s I; auto. apply X. cbn [map property_codes data_codes fst In] in *. tauto.
Qed.

Definition props_of (d : printed) : text :=
  (lit "title=Jarl (" ++ p_rule d ++ lit ")") ++ 44%N :: (lit "file=" ++ p_file d) ++ 44%N ::
  (lit "line=" ++ decimal (p_row d)) ++ 44%N :: (lit "col=" ++ decimal (p_col d + 1)).
Definition data_of (d : printed) : text :=
  p_file d ++ lit ":" ++ decimal (p_row d) ++ lit ":" ++ decimal (p_col d + 1) ++ lit " [" ++ p_rule d ++ lit "] " ++ says d.
Lemma github_line_shape d : github_line d = lit "::" ++ (lit "warning " ++ props_of d) ++ lit "::" ++ data_of d.
Proof.
  unfold github_line, props_of, data_of. rewrite message_says.
  change (lit "::warning title=Jarl (") with (lit "::" ++ lit "warning " ++ lit "title=Jarl (").
  change (lit "),file=") with (lit ")" ++ 44%N :: lit "file=").
  change (lit ",line=") with (44%N :: lit "line="). change (lit ",col=") with (44%N :: lit "col=").
  change (lit " [") with (lit " " ++ lit "[").
  rewrite <- !app_assoc. cbn [app]. rewrite <- !app_assoc. cbn [app]. rewrite <- !app_assoc. cbn [app]. rewrite <- !app_assoc. reflexivity.
Qed.

Section Line.
Variable d : printed.
Hypothesis F : fit_for_github d.
Let rl : exists r, p_rule d = rule_name r.
Proof. apply F. Qed.
Lemma props_tight : tight (props_of d).
Proof.
  split.
  - intros c r E. unfold props_of in E. cbn in E. injection E as <- _. reflexivity.
  - intros r c E. unfold props_of in E.
    destruct (exists_last (decimal_nonempty (p_col d + 1))) as (q & z & Q).
    rewrite Q in E.
    assert (G : exists pre, (lit "title=Jarl (" ++ p_rule d ++ lit ")") ++ 44%N :: (lit "file=" ++ p_file d) ++ 44%N ::
      (lit "line=" ++ decimal (p_row d)) ++ 44%N :: (lit "col=" ++ q ++ [z]) = pre ++ [z]).
    { exists ((lit "title=Jarl (" ++ p_rule d ++ lit ")") ++ 44%N :: (lit "file=" ++ p_file d) ++ 44%N ::
        (lit "line=" ++ decimal (p_row d)) ++ 44%N :: (lit "col=" ++ q)).
      repeat (rewrite <- app_assoc; cbn [app]). reflexivity. }
    destruct G as (pre & G). rewrite G in E. apply app_inj_tail in E as (_ & <-).
    assert (Z : (48 <= z <= 57)%N) by (apply (decimal_digits (p_col d + 1)); rewrite Q; apply in_or_app; right; now left).
    assert (W : forall n, 48 <= n <= 57 -> is_ws (N.of_nat n) = false).
    { intros n (A & B). do 48 (destruct n as [|n]; [lia|]). do 10 (destruct n as [|n]; [reflexivity|]). lia. }
    rewrite <- (N2Nat.id z). apply W. lia.
Qed.
Lemma info_no_colons : ~ occurs (lit "::") (lit "warning " ++ props_of d).
Proof.
  destruct rl as (r & R). unfold props_of. rewrite R.
  assert (X : forall a x b, x <> 58%N -> ~ occurs (lit "::") a -> ~ occurs (lit "::") b -> ~ occurs (lit "::") (a ++ x :: b)).
  { intros a x b N A B O. apply occurs_cross in O as [O|O]; auto; [|discriminate]. change (lit "::") with [58%N; 58%N]. intros [I|[I|[]]]; apply N; symmetry; exact I. }
  rewrite app_assoc.
  apply X; [discriminate|apply no_colons; intros I; not_in|].
  apply X; [discriminate| |].
  - change (lit "file=") with (lit "file" ++ [61%N]). rewrite <- app_assoc. cbn [app].
    apply X; [discriminate|apply no_colons; intros I; not_in|apply F].
  - apply X; [discriminate|apply no_colons; intros I; not_in|apply no_colons; intros I; not_in].
Qed.
Lemma reads_line : exists c, github_reads (github_line d) = Some c /\ annotates c d.
Proof.
  rewrite github_line_shape. unfold github_reads.
  rewrite (proj2 (strip_prefix_iff (lit "::") _ _) eq_refl).
  assert (C : cut (lit "::") ((lit "warning " ++ props_of d) ++ lit "::" ++ data_of d) = Some (lit "warning " ++ props_of d, data_of d)).
  { destruct (@exists_last _ (lit "warning " ++ props_of d)) as (q & z & Q); [discriminate|].
    rewrite Q. apply cut_colons.
    - rewrite <- Q. apply info_no_colons.
    - intros ->. destruct props_tight as (_ & T).
      destruct (@exists_last _ (props_of d)) as (q' & z' & Q'); [unfold props_of; discriminate|].
      rewrite Q', app_assoc in Q. apply app_inj_tail in Q as (_ & ->).
      destruct (exists_last (decimal_nonempty (p_col d + 1))) as (u & v & V).
      unfold props_of in Q'. rewrite V in Q'.
      assert (G : exists pre, (lit "title=Jarl (" ++ p_rule d ++ lit ")") ++ 44%N :: (lit "file=" ++ p_file d) ++ 44%N ::
        (lit "line=" ++ decimal (p_row d)) ++ 44%N :: (lit "col=" ++ u ++ [v]) = pre ++ [v]).
      { exists ((lit "title=Jarl (" ++ p_rule d ++ lit ")") ++ 44%N :: (lit "file=" ++ p_file d) ++ 44%N ::
          (lit "line=" ++ decimal (p_row d)) ++ 44%N :: (lit "col=" ++ u)).
        repeat (rewrite <- app_assoc; cbn [app]). reflexivity. }
      destruct G as (pre & G). rewrite G in Q'. apply app_inj_tail in Q' as (_ & ->).
      assert (Z : (48 <= 58 <= 57)%N) by (apply (decimal_digits (p_col d + 1)); rewrite V; apply in_or_app; right; now left). lia. }
  rewrite C. clear C.
  change (cut (lit " ") (lit "warning " ++ props_of d)) with (cut [32%N] (lit "warning" ++ 32%N :: props_of d)).
  rewrite cut_char by (cbv; intuition discriminate). cbv beta iota.
  destruct rl as (r & R). destruct F as (F1 & F2 & F3 & F4 & M1 & M2 & _).
  assert (T : trim (props_of d) = props_of d).
  { apply DirectiveProofs.trim_is; [apply props_tight|]. exists [], []. split; [reflexivity|]. split; [reflexivity|]. now rewrite app_nil_r. }
  rewrite T. clear T.
  unfold props_of.
  rewrite !split_on_app, split_on_single; try (rewrite ?R; intros I; not_in; auto).
  cbn [flat_map]. rewrite app_nil_r.
  assert (P : forall k v, ~ In 61%N k -> no_codes property_codes v -> pair_of (k ++ 61%N :: v) = [(k, v)]).
  { intros k v K V. unfold pair_of. change (lit "=") with [61%N]. rewrite cut_char by auto. now rewrite decode_id. }
  assert (NP : forall t, ~ In 37%N t -> no_codes property_codes t).
  { intros t. apply no_percent. intros s I. now apply (code_heads property_codes (or_intror eq_refl)). }
  assert (E1 : pair_of (lit "title=Jarl (" ++ p_rule d ++ lit ")") = [(lit "title", lit "Jarl (" ++ p_rule d ++ lit ")")]).
  { apply (P (lit "title") (lit "Jarl (" ++ p_rule d ++ lit ")")); [cbv; intuition discriminate|]. apply NP. rewrite R. intros I. not_in. }
  assert (E2 : pair_of (lit "file=" ++ p_file d) = [(lit "file", p_file d)]).
  { apply (P (lit "file") (p_file d)); [cbv; intuition discriminate|auto]. }
  assert (E3 : pair_of (lit "line=" ++ decimal (p_row d)) = [(lit "line", decimal (p_row d))]).
  { apply (P (lit "line") (decimal (p_row d))); [cbv; intuition discriminate|]. apply NP. intros I. not_in. }
  assert (E4 : pair_of (lit "col=" ++ decimal (p_col d + 1)) = [(lit "col", decimal (p_col d + 1))]).
  { apply (P (lit "col") (decimal (p_col d + 1))); [cbv; intuition discriminate|]. apply NP. intros I. not_in. }
  rewrite E1, E2, E3, E4. clear P E1 E2 E3 E4. cbn [app].
  assert (D : decode data_codes 0 (data_of d) = data_of d).
  { apply decode_id. unfold data_of.
    assert (X : forall x, x <> 37%N -> ~ (48 <= x <= 57)%N -> ~ (65 <= x <= 68)%N -> forall s, In s (map fst data_codes) -> ~ In x s /\ s <> []).
    { intros x A B K s I. destruct (code_heads data_codes (or_introl eq_refl) s I) as (_ & Ns & H). split; auto. intros J. apply H in J. tauto. }
    assert (NQ : forall t, ~ In 37%N t -> no_codes data_codes t).
    { intros t. apply no_percent. intros s I. now apply (code_heads data_codes (or_introl eq_refl)). }
    change (lit ":") with [58%N]. change (lit " [") with [32%N; 91%N]. change (lit "] ") with [93%N; 32%N]. cbn [app].
    apply no_codes_app; [apply X; lia| |].
    { intros s I. apply F2. cbn [map fst data_codes property_codes In] in *. tauto. }
    apply no_codes_app; [apply X; lia|apply NQ; intros I; not_in|].
    apply no_codes_app; [apply X; lia|apply NQ; intros I; not_in|].
    apply (no_codes_app data_codes [] 91%N); [apply X; lia|apply NQ; intros []|].
    apply no_codes_app; [apply X; lia|apply NQ; rewrite R; intros I; not_in|].
    apply (no_codes_app data_codes [] 32%N); [apply X; lia|apply NQ; intros []|auto]. }
  eexists. split; [reflexivity|]. unfold annotates, property. cbn [cm_name cm_properties cm_data]. rewrite D.
  split; [reflexivity|]. cbn [rev app filter fst].
  split; [reflexivity|]. split; [reflexivity|]. split; [reflexivity|]. split; [reflexivity|]. reflexivity.
Qed.
Lemma line_one : one_line (github_line d).
Proof.
  rewrite github_line_shape. unfold props_of, data_of. destruct rl as (r & R). rewrite R.
  destruct F as (F1 & _ & _ & _ & M1 & _). unfold one_line in *. change nl with 10%N in *. intros I. not_in; auto.
Qed.
End Line.

Lemma github_output ds : Forall fit_for_github ds ->
  exists cs, map github_reads (output_lines (print_github ds)) = map Some cs /\ Forall2 annotates cs ds.
Proof.
  intros H. unfold print_github. rewrite output_lines_map.
  - induction H as [|d ds F Fs IH].
    + exists []. split; [reflexivity|constructor].
    + destruct IH as (cs & E & A). destruct (reads_line d F) as (c & C & D). exists (c :: cs). split; [|now constructor].
      cbn [map]. now rewrite C, E.
  - intros d I. rewrite Forall_forall in H. now apply line_one, H.
Qed.

(** ** The concise format *)
Lemma sep_unique (x y : char) a a' b b' : x <> y -> ~ occurs [x; y] a -> ~ occurs [x; y] a' ->
  a ++ x :: y :: b = a' ++ x :: y :: b' -> a = a' /\ b = b'.
Proof.
  intros N. revert a'. induction a as [|c a IH]; intros [|c' a'] A A' E; cbn [app] in E.
  - injection E as ->. auto.
  - exfalso. destruct a' as [|d a']; cbn [app] in E.
    + injection E as _ E _. congruence.
    + injection E as -> -> E. apply A'. exists [], a'. reflexivity.
  - exfalso. destruct a as [|d a]; cbn [app] in E.
    + injection E as _ E _. congruence.
    + injection E as -> -> E. apply A. exists [], a. reflexivity.
  - injection E as -> E. destruct (IH a') as (-> & ->); auto.
    + intros (p & q & X). apply A. exists (c' :: p), q. now rewrite X.
    + intros (p & q & X). apply A'. exists (c' :: p), q. now rewrite X.
Qed.
Lemma char_unique (x : char) a a' b b' : ~ In x a -> ~ In x a' -> a ++ x :: b = a' ++ x :: b' -> a = a' /\ b = b'.
Proof.
  revert a'. induction a as [|c a IH]; intros [|c' a'] A A' E; cbn [app] in E.
  - injection E as ->. auto.
  - injection E as -> _. exfalso. apply A'. now left.
  - injection E as -> _. exfalso. apply A. now left.
  - injection E as -> E. destruct (IH a') as (-> & ->); auto; intros I; [apply A|apply A']; now right.
Qed.
Lemma shown_rule_inj (nc : bool) r r' m m' :
  (if nc then rule_name r else make_hyperlink (rule_name r)) ++ 32%N :: m =
  (if nc then rule_name r' else make_hyperlink (rule_name r')) ++ 32%N :: m' -> rule_name r = rule_name r' /\ m = m'.
Proof.
  destruct nc; intros E.
  - apply char_unique in E; auto; apply rule_not; lia.
  - unfold make_hyperlink in E. rewrite <- !app_assoc in E. do 3 apply app_inv_head in E.
    change esc with [27%N] in E. cbn [app] in E.
    apply char_unique in E as (E & E'); [|apply rule_not; lia|apply rule_not; lia].
    split; auto. rewrite E in E'. repeat (first [apply app_inv_head in E' | injection E' as E']). exact E'.
Qed.
Lemma concise_inj relative nc d d' r r' :
  ~ occurs (lit " [") (relative (p_file d)) -> ~ occurs (lit " [") (relative (p_file d')) ->
  p_rule d = rule_name r -> p_rule d' = rule_name r' ->
  concise_line relative nc d = concise_line relative nc d' ->
  relative (p_file d) = relative (p_file d') /\ p_row d = p_row d' /\ p_col d = p_col d' /\ p_rule d = p_rule d' /\ says d = says d'.
Proof.
  intros A A' R R' E. unfold concise_line in E. rewrite !message_says in E. rewrite R, R' in *.
  change (lit " [") with [32%N; 91%N] in *. change (lit ":") with [58%N] in E. change (lit "] ") with [93%N; 32%N] in E.
  change (lit " ") with [32%N] in E. cbn [app] in E.
  apply sep_unique in E as (E1 & E); auto; [|discriminate].
  apply decimal_cut in E as (E2 & _ & E); [|lia|lia].
  apply decimal_cut in E as (E3 & _ & E); [|lia|lia].
  injection E as E. apply shown_rule_inj in E as (E4 & E5). repeat split; auto. lia.
Qed.
Lemma concise_one relative nc d r : one_line (relative (p_file d)) -> one_line (says d) -> p_rule d = rule_name r ->
  one_line (concise_line relative nc d).
Proof.
  intros A M R. unfold one_line in *. change nl with 10%N in *. unfold concise_line. rewrite message_says, R. intros I.
  apply in_app_or in I as [I|I]; auto. apply in_app_or in I as [I|I]; [not_in|]. apply in_app_or in I as [I|I]; [not_in|].
  apply in_app_or in I as [I|I]; [not_in|]. apply in_app_or in I as [I|I]; [not_in|]. apply in_app_or in I as [I|I]; [not_in|].
  apply in_app_or in I as [I|I].
  - destruct nc; [not_in|]. unfold make_hyperlink in I. change esc with [27%N] in I. not_in.
  - not_in; auto.
Qed.

(** ** Statistics and summary *)
Lemma pad_cut (i j : nat) (x y : char) a b : x <> 32%N -> y <> 32%N -> repeat 32%N i ++ x :: a = repeat 32%N j ++ y :: b -> x :: a = y :: b.
Proof.
  intros X Y. revert j. induction i as [|i IH]; intros [|j] E; cbn [repeat app] in E; auto.
  - injection E as E _. congruence.
  - injection E as E _. congruence.
  - injection E as E. eauto.
Qed.
Lemma statistics_inj e e' : statistics_line e = statistics_line e' -> e = e'.
Proof.
  destruct e as (r & n & f), e' as (r' & n' & f'). unfold statistics_line, pad5. cbn [fst snd]. intros E. rewrite <- !app_assoc in E.
  assert (K : forall n t, exists c q, decimal n ++ t = c :: q /\ c <> 32%N).
  { intros m t. destruct (decimal m) as [|c q] eqn:D; [now apply decimal_nonempty in D|].
    exists c, (q ++ t). split; auto. intros ->. assert (X : In 32%N (decimal m)) by (rewrite D; now left).
    apply decimal_digits in X. lia. }
  change (lit " [") with [32%N; 91%N] in E. change (lit "] ") with [93%N; 32%N] in E. cbn [app] in E.
  match type of E with _ ++ decimal n ++ ?t = _ ++ decimal n' ++ ?t' =>
    assert (E' : decimal n ++ t = decimal n' ++ t');
    [destruct (K n t) as (c & q & Q & C), (K n' t') as (c' & q' & Q' & C'); unfold text, char in *; rewrite Q, Q' in E; rewrite Q, Q'; exact (pad_cut _ _ _ _ _ _ C C' E)|] end.
  apply decimal_cut in E' as (-> & _ & E'); [|lia|lia]. injection E' as E'.
  destruct f, f'; cbn in E'; injection E' as E'; try discriminate; now subst.
Qed.
Lemma cons_inj {A} (a b : A) l m : a :: l = b :: m -> a = b /\ l = m.
Proof. intros [= -> ->]. auto. Qed.
Lemma summary_inj hint e t s u t' s' u' : 0 < t -> 
  summary_lines hint e (t, s, u) = summary_lines hint e (t', s', u') -> t = t' /\ s = s' /\ u = u'.
Proof.
  intros P E. unfold summary_lines in E.
  destruct (Nat.ltb_spec 0 t); [|lia].
  destruct (Nat.ltb_spec 0 t') as [P'|P']; [|destruct e; discriminate].
  cbn [app] in E. apply cons_inj in E as (_ & E). apply cons_inj in E as (_ & E). apply cons_inj in E as (Ef & E).
  assert (T : t = t').
  { destruct (Nat.ltb_spec 1 t), (Nat.ltb_spec 1 t').
    - apply app_inv_head in Ef. change (lit " errors.") with (32%N :: lit "errors.") in Ef. apply decimal_cut in Ef as (Ef & _); auto; lia.
    - change (lit "Found 1 error.") with (lit "Found " ++ decimal 1 ++ 32%N :: lit "error.") in Ef.
      apply app_inv_head in Ef. change (lit " errors.") with (32%N :: lit "errors.") in Ef. apply decimal_cut in Ef as (Ef & _); auto; lia.
    - change (lit "Found 1 error.") with (lit "Found " ++ decimal 1 ++ 32%N :: lit "error.") in Ef.
      apply app_inv_head in Ef. change (lit " errors.") with (32%N :: lit "errors.") in Ef. apply decimal_cut in Ef as (Ef & _); auto; lia.
    - lia. }
  subst t'. split; auto.
  apply app_inv_tail in E.
  assert (X : forall n, n =? 1 = true -> n = 1) by (intros n; apply Nat.eqb_eq).
  destruct (Nat.ltb_spec 0 s), (Nat.ltb_spec 0 s').
  - apply cons_inj in E as (E & _).
    destruct (Nat.eqb_spec u 0), (Nat.eqb_spec u' 0).
    + change (lit " fixable with the `--fix` option.") with (32%N :: lit "fixable with the `--fix` option.") in E.
      apply decimal_cut in E as (E & _); [lia|lia|lia].
    + exfalso. change (lit " fixable with the `--fix` option.") with (32%N :: lit "fixable with the `--fix` option" ++ lit ".") in E.
      change (lit " fixable with the `--fix` option (") with (32%N :: lit "fixable with the `--fix` option" ++ lit " (") in E.
      repeat rewrite <- app_comm_cons in E. rewrite <- app_assoc in E.
      apply decimal_cut in E as (_ & _ & E); [|lia|lia]. apply app_inv_head in E. discriminate.
    + exfalso. change (lit " fixable with the `--fix` option.") with (32%N :: lit "fixable with the `--fix` option" ++ lit ".") in E.
      change (lit " fixable with the `--fix` option (") with (32%N :: lit "fixable with the `--fix` option" ++ lit " (") in E.
      repeat rewrite <- app_comm_cons in E. rewrite <- app_assoc in E.
      apply decimal_cut in E as (_ & _ & E); [|lia|lia]. apply app_inv_head in E. discriminate.
    + change (lit " fixable with the `--fix` option (") with (32%N :: lit "fixable with the `--fix` option (") in E.
      repeat rewrite <- app_comm_cons in E.
      apply decimal_cut in E as (-> & _ & E); [|lia|lia]. split; auto. apply app_inv_head in E. apply app_inv_tail in E.
      change (lit "1 hidden fix") with (decimal 1 ++ 32%N :: lit "hidden fix") in E.
      change (lit " hidden fixes") with (32%N :: lit "hidden fixes") in E.
      destruct (Nat.eqb_spec u 1), (Nat.eqb_spec u' 1); try lia; apply decimal_cut in E as (E & _); lia.
  - exfalso. destruct (Nat.ltb_spec 0 u'); [|discriminate]. apply cons_inj in E as (E & _).
    assert (Y : exists n r, (if u =? 0 then decimal s ++ lit " fixable with the `--fix` option."
        else decimal s ++ lit " fixable with the `--fix` option (" ++
             (if u =? 1 then lit "1 hidden fix" else decimal u ++ lit " hidden fixes") ++
             lit " can be enabled with the `--unsafe-fixes` option).") = decimal n ++ 32%N :: lit "fixable " ++ r).
    { destruct (u =? 0); [exists s, (lit "with the `--fix` option.")|eexists s, (lit "with the `--fix` option (" ++ _)]; reflexivity. }
    destruct Y as (n & r & Y). rewrite Y in E. clear Y.
    destruct (u' =? 1).
    + change (lit "1 fix is") with (decimal 1 ++ 32%N :: lit "fix is") in E. rewrite <- app_assoc in E. cbn [app] in E.
      apply decimal_cut in E as (_ & _ & E); [|lia|lia]. discriminate.
    + change (lit " fixes are") with (32%N :: lit "fixes are") in E. rewrite <- app_assoc in E. cbn [app] in E.
      apply decimal_cut in E as (_ & _ & E); [|lia|lia]. discriminate.
  - exfalso. destruct (Nat.ltb_spec 0 u); [|discriminate]. apply cons_inj in E as (E & _).
    assert (Y : exists n r, (if u' =? 0 then decimal s' ++ lit " fixable with the `--fix` option."
        else decimal s' ++ lit " fixable with the `--fix` option (" ++
             (if u' =? 1 then lit "1 hidden fix" else decimal u' ++ lit " hidden fixes") ++
             lit " can be enabled with the `--unsafe-fixes` option).") = decimal n ++ 32%N :: lit "fixable " ++ r).
    { destruct (u' =? 0); [exists s', (lit "with the `--fix` option.")|eexists s', (lit "with the `--fix` option (" ++ _)]; reflexivity. }
    destruct Y as (n & r & Y). rewrite Y in E. clear Y.
    destruct (u =? 1).
    + change (lit "1 fix is") with (decimal 1 ++ 32%N :: lit "fix is") in E. rewrite <- app_assoc in E. cbn [app] in E.
      apply decimal_cut in E as (_ & _ & E); [|lia|lia]. discriminate.
    + change (lit " fixes are") with (32%N :: lit "fixes are") in E. rewrite <- app_assoc in E. cbn [app] in E.
      apply decimal_cut in E as (_ & _ & E); [|lia|lia]. discriminate.
  - split; [lia|]. destruct (Nat.ltb_spec 0 u), (Nat.ltb_spec 0 u'); try discriminate; [|lia].
    apply cons_inj in E as (E & _). apply app_inv_tail in E.
    change (lit "1 fix is") with (decimal 1 ++ 32%N :: lit "fix is") in E.
    change (lit " fixes are") with (32%N :: lit "fixes are") in E.
    destruct (Nat.eqb_spec u 1), (Nat.eqb_spec u' 1); try lia; apply decimal_cut in E as (E & _); lia.
Qed.
Fixpoint contains_text (s t : text) : bool :=
  starts_with s t || match t with [] => false | _ :: r => contains_text s r end.
Lemma not_occurs s t : contains_text s t = false -> ~ occurs s t.
Proof.
  intros H (a & b & ->). revert H. induction a as [|c a IH]; cbn [app].
  - assert (S : starts_with s (s ++ b) = true) by (apply starts_with_iff; eauto).
    destruct (s ++ b); cbn [contains_text]; rewrite S; discriminate.
  - cbn [contains_text]. intros H. apply Bool.orb_false_iff in H as (_ & H). auto.
Qed.
Lemma all_checks_passed hint e t s u :
  In (lit "All checks passed!") (summary_lines hint e (t, s, u)) <-> t = 0 /\ e = false.
Proof.
  assert (D : forall n x r, ~ (48 <= x <= 57)%N -> lit "All checks passed!" <> decimal n ++ x :: r).
  { intros n x r X E. destruct (decimal n) as [|c q] eqn:Q; [now apply decimal_nonempty in Q|].
    assert (I : In c (decimal n)) by (rewrite Q; now left). apply decimal_digits in I. cbn in E. injection E as E _. lia. }
  assert (H : forall x, lit "All checks passed!" <> section_header x) by (intros x; discriminate).
  unfold summary_lines. destruct (Nat.ltb_spec 0 t) as [P|P].
  - split; [|lia]. intros I. exfalso. rewrite !in_app_iff in I. destruct I as [[I|[I|[I|[]]]]|[I|I]].
    + discriminate I.
    + symmetry in I. now apply H in I.
    + destruct (1 <? t); discriminate I.
    + destruct (0 <? s).
      * destruct I as [I|[]]. symmetry in I. destruct (u =? 0).
        -- change (lit " fixable with the `--fix` option.") with (32%N :: lit "fixable with the `--fix` option.") in I. revert I. apply D. lia.
        -- change (lit " fixable with the `--fix` option (") with (32%N :: lit "fixable with the `--fix` option (") in I.
           rewrite <- app_comm_cons in I. revert I. apply D. lia.
      * destruct (0 <? u); [|destruct I]. destruct I as [I|[]]. symmetry in I. destruct (u =? 1); [discriminate I|].
        change (lit " fixes are") with (32%N :: lit "fixes are") in I. rewrite <- app_assoc in I. cbn [app] in I. revert I. apply D. lia.
    + destruct (hint <? t); [|destruct I]. destruct I as [I|[]]. discriminate I.
  - assert (t = 0) by lia. destruct e; cbn [In].
    + split; [intros []|]. intros (_ & X). discriminate.
    + split; [auto|]. intros _. right. left. reflexivity.
Qed.
