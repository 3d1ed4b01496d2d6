(** NAMESPACE exports (C22). *)
From Verif Require Import Model.Text Model.Base Model.Cli Model.Package Spec.PackageSpec.
From Verif Require Import Proofs.TextProofs Proofs.SplitProofs Proofs.RmdProofs Proofs.LspGlob Proofs.PackageScan Proofs.PackageWords.

Lemma find_sub_none p t : find_sub p t = None <-> forall a b, t <> a ++ p ++ b.
Proof.
  induction t as [|c t IH]; simpl.
  - destruct (strip_prefix p []) as [r|] eqn:E.
    + apply strip_prefix_iff in E. split; [discriminate|]. intros H. exfalso. apply (H [] r). exact E.
    + split; auto. intros _ a b H. destruct a; [|discriminate]. simpl in H.
      assert (strip_prefix p [] = Some b) by now apply strip_prefix_iff. congruence.
  - destruct (strip_prefix p (c :: t)) as [r|] eqn:E.
    + apply strip_prefix_iff in E. split; [discriminate|]. intros H. exfalso. apply (H [] r). exact E.
    + destruct (find_sub p t) as [[a b]|] eqn:F.
      * split; [discriminate|]. intros H. exfalso. assert (Some (a, b) = None); [|discriminate].
        apply IH. intros a' b' ->. apply (H (c :: a') b'). reflexivity.
      * split; auto. intros _ a b H. destruct a as [|x a].
        -- assert (strip_prefix p (c :: t) = Some b) by (apply strip_prefix_iff; auto). congruence.
        -- injection H as _ H. now apply (proj1 IH eq_refl a b).
Qed.
Lemma find_sub_here p r : find_sub p (p ++ r) = Some ([], r).
Proof. destruct p; simpl; [destruct r; reflexivity|]. rewrite N.eqb_refl, strip_prefix_app. reflexivity. Qed.
Lemma before_last_end x t : before_last x (t ++ [x]) = Some t.
Proof. unfold before_last. rewrite rev_app_distr. simpl. now rewrite N.eqb_refl, rev_involutive. Qed.
Lemma extract_here d args : extract_directive (d ++ lit "(" ++ args ++ lit ")") d = Some args.
Proof.
  unfold extract_directive. rewrite app_assoc, find_sub_here. simpl. apply (before_last_end 41%N args).
Qed.

(** ** Arguments *)
Definition no_quote_ends (x : text) : Prop :=
  (forall c r, x = c :: r -> c <> 34%N /\ c <> 39%N) /\ (forall c r, x = r ++ [c] -> c <> 34%N /\ c <> 39%N).
Lemma drop_while_id x t : (forall r, t <> x :: r) -> drop_while x t = t.
Proof. intros H. destruct t as [|c t]; simpl; auto. destruct (N.eqb c x) eqn:E; auto. apply N.eqb_eq in E. subst. now destruct (H t). Qed.
Lemma trim_end_id x t : (forall r, t <> r ++ [x]) -> trim_end_matches x t = t.
Proof.
  intros H. unfold trim_end_matches. rewrite drop_while_id; [apply rev_involutive|].
  intros r E. apply (H (rev r)). apply (f_equal (@rev _)) in E. rewrite rev_involutive in E. exact E.
Qed.
Lemma trim_matches_id x t : (forall r, t <> x :: r) -> (forall r, t <> r ++ [x]) -> trim_matches x t = t.
Proof. intros H1 H2. unfold trim_matches. now rewrite drop_while_id, trim_end_id. Qed.
Lemma trim_matches_q x t : t <> [] -> (forall r, t <> x :: r) -> (forall r, t <> r ++ [x]) -> trim_matches x (x :: t ++ [x]) = t.
Proof.
  intros N H1 H2. unfold trim_matches. simpl. rewrite N.eqb_refl. rewrite drop_while_id.
  - rewrite trim_end_matches_snoc. now apply trim_end_id.
  - intros r E. destruct t as [|c t]; [congruence|]. injection E as -> _. now apply (H1 t).
Qed.
Lemma unquote_arg x arg : x <> [] -> no_quote_ends x -> (forall c, In c x -> is_ws c = false) \/ (exists w1 q w2, arg = w1 ++ q ++ x ++ q ++ w2 /\ Forall blank w1 /\ Forall blank w2 /\ (q = [34%N] \/ q = [39%N])) ->
  as_arg x arg -> unquote arg = x.
Proof.
  intros Nx (Q1 & Q2) K A.
  assert (A' : exists w1 q w2, arg = w1 ++ (q ++ x ++ q) ++ w2 /\ Forall blank w1 /\ Forall blank w2 /\
     (q = [] /\ (forall c, In c x -> is_ws c = false) \/ q = [34%N] \/ q = [39%N])).
  { destruct K as [K|(w1 & q & w2 & -> & B1 & B2 & Hq)].
    - destruct A as (w1 & q & w2 & -> & B1 & B2 & Hq). exists w1, q, w2. rewrite <- !app_assoc. repeat split; auto.
      destruct Hq as [->|[->| ->]]; auto.
    - exists w1, q, w2. rewrite <- !app_assoc. repeat split; auto. }
  clear K A. destruct A' as (w1 & q & w2 & -> & B1 & B2 & Hq). unfold unquote.
  assert (T : tight (q ++ x ++ q)).
  { destruct Hq as [(-> & W)|Hq].
    - simpl. rewrite app_nil_r. split.
      + intros c r E. apply W. rewrite E. now left.
      + intros r c E. apply W. rewrite E. apply in_or_app. right. now left.
    - assert (exists u, q = [u] /\ is_ws u = false) as (u & -> & Hu) by (destruct Hq as [->| ->]; eauto).
      split.
      + intros c r E. injection E as <- _. auto.
      + intros r c E. rewrite app_assoc in E. apply app_inj_tail in E as (_ & <-). auto. }
  rewrite trim_unique by (auto using blank_ws).
  assert (H34 : forall r, x <> 34%N :: r) by (intros r E; now apply Q1 in E).
  assert (H39 : forall r, x <> 39%N :: r) by (intros r E; now apply Q1 in E).
  assert (E34 : forall r, x <> r ++ [34%N]) by (intros r E; now apply Q2 in E).
  assert (E39 : forall r, x <> r ++ [39%N]) by (intros r E; now apply Q2 in E).
  destruct Hq as [(-> & _)|[->| ->]].
  - simpl. rewrite app_nil_r. rewrite (trim_matches_id 34%N) by auto. now apply trim_matches_id.
  - change ([34%N] ++ x ++ [34%N]) with (34%N :: x ++ [34%N]). rewrite trim_matches_q by auto. now apply trim_matches_id.
  - change ([39%N] ++ x ++ [39%N]) with (39%N :: x ++ [39%N]). rewrite (trim_matches_id 34%N).
    + now apply trim_matches_q.
    + intros r E. discriminate.
    + intros r E. rewrite app_comm_cons in E. apply app_inj_tail in E as (_ & E). discriminate.
Qed.
Lemma wordy_not_quote c : wordy c -> c <> 34%N /\ c <> 39%N /\ c <> 44%N /\ c <> 40%N /\ c <> 41%N /\ c <> 58%N.
Proof.
  intros H. repeat split; intros ->; unfold wordy in H; destruct H as [H|[H|H]]; discriminate.
Qed.
Lemma plain_arg x arg : plain_name x -> as_arg x arg -> unquote arg = x.
Proof.
  intros (F & c & r & E & _) A. rewrite Forall_forall in F. apply unquote_arg; auto.
  - subst. discriminate.
  - split; intros d t Et; assert (W : wordy d) by (apply F; rewrite Et; first [now left|apply in_or_app; right; now left]);
      apply wordy_not_quote in W; tauto.
  - left. intros d Hd. now apply wordy_not_ws, F.
Qed.
Lemma arg_chars x arg (k : char) : plain_name x -> as_arg x arg -> In k arg -> is_ws k = true \/ wordy k \/ k = 34%N \/ k = 39%N.
Proof.
  intros (F & _) (w1 & q & w2 & -> & B1 & B2 & Hq) I. rewrite Forall_forall in *.
  assert (Iq : In k q -> k = 34%N \/ k = 39%N) by (destruct Hq as [->|[->| ->]]; simpl; intuition).
  rewrite !in_app_iff in I. destruct I as [I|[I|[I|[I|I]]]]; auto.
  - left. now apply B1.
  - left. now apply B2.
Qed.
Lemma arg_no x arg (k : char) : plain_name x -> as_arg x arg -> (k = 44%N \/ k = 40%N \/ k = 41%N \/ k = 58%N \/ k = nl) -> ~ In k arg.
Proof.
  intros P A Hk I. destruct (arg_chars x arg k P A I) as [W|[W|[W|W]]].
  - destruct A as (w1 & q & w2 & -> & B1 & B2 & Hq). destruct Hk as [->|[->|[->|[->| ->]]]]; try discriminate.
    rewrite Forall_forall in *. destruct P as (F & _). rewrite Forall_forall in F.
    rewrite !in_app_iff in I. assert (Iq : ~ In nl q) by (destruct Hq as [->|[->| ->]]; simpl; intuition discriminate).
    destruct I as [I|[I|[I|[I|I]]]]; auto.
    + apply B1 in I as (_ & I); congruence.
    + apply F in I. now apply wordy_not_nl in I.
    + apply B2 in I as (_ & I); congruence.
  - apply wordy_not_quote in W as K. apply wordy_not_nl in W. destruct Hk as [->|[->|[->|[->| ->]]]]; intuition.
  - subst k. destruct Hk as [H|[H|[H|[H|H]]]]; discriminate.
  - subst k. destruct Hk as [H|[H|[H|[H|H]]]]; discriminate.
Qed.

(** ** Lines *)
Lemma ns_line_in ns l : ns_line ns l -> tight l -> l <> [] -> exists x, In x (lines ns) /\ trim x = l.
Proof.
  intros (pre & w1 & w2 & post & -> & L & B1 & B2 & N & Hp) T Nl.
  assert (NN : ~ In nl (w1 ++ l ++ w2)).
  { assert (Nb : forall w, Forall blank w -> ~ In nl w).
    { intros w F I. rewrite Forall_forall in F. destruct (F _ I) as (_ & K). congruence. }
    rewrite !in_app_iff. intros [I|[I|I]]; auto; now apply Nb in I. }
  destruct (split_line (pre ++ w1 ++ l ++ w2 ++ post) pre (w1 ++ l ++ w2 ++ post)) with (q := w1 ++ l ++ w2) (r := post)
    as (y & Iy & Hy); auto.
  { destruct w1; [destruct l; [congruence|discriminate]|discriminate]. }
  { now rewrite <- !app_assoc. }
  exists (chomp y). split; [unfold lines; now apply in_map|].
  destruct (chomp_spec _ y NN Hy) as (_ & _ & _ & (c & Ec & Wc) & _).
  destruct (exists_last Nl) as (l' & x & El). assert (Wx : is_ws x = false) by (destruct T as (_ & T); eauto).
  assert (K : exists w2', chomp y = w1 ++ l ++ w2' /\ w2 = w2' ++ c).
  { rewrite El in Ec |- *. rewrite <- app_assoc in Ec. simpl in Ec. rewrite app_assoc in Ec.
    destruct (app_suffix (w1 ++ l') w2 (chomp y) c x Ec Wc Wx) as (q' & -> & ->). exists q'. split; auto.
    rewrite <- !app_assoc. reflexivity. }
  destruct K as (w2' & -> & ->). apply trim_unique; auto using blank_ws.
  apply blank_ws. apply Forall_app in B2. tauto.
Qed.
Lemma directive_tight d r : (exists c t, d = c :: t /\ is_ws c = false) -> tight (d ++ r ++ lit ")").
Proof.
  intros (c & t & -> & W). split.
  - intros x y E. injection E as <- _. auto.
  - intros y x E. rewrite app_assoc in E. apply app_inj_tail in E as (_ & <-). reflexivity.
Qed.

Section NS.
Variable regex : text -> option (text -> bool).
Lemma line_exports_in all ns x name : In x (lines ns) -> In name (line_exports regex all x) ->
  In name (parse_namespace_exports regex ns all).
Proof. intros H1 H2. unfold parse_namespace_exports. apply in_flat_map. eauto. Qed.
Lemma line_exports_eq all x l : trim x = l -> (exists c t, l = c :: t /\ c <> 35%N) ->
  line_exports regex all x = first_directive regex l directives all.
Proof.
  intros E (c & t & El & H). unfold line_exports. rewrite E, El.
  destruct (starts_with (lit "#") (c :: t)) eqn:S; auto.
  apply starts_with_iff in S as (r & S). injection S as S _. congruence.
Qed.
Lemma list_names_among name args : plain_name name -> among name args -> In name (list_names args).
Proof.
  intros P (a1 & arg & a2 & -> & A & H1 & H2). unfold list_names. apply filter_In. split.
  - apply in_map_iff. exists arg. split; [now apply plain_arg|]. apply split_components.
    split; [apply (arg_no name arg); auto|].
    exists a1, a2. auto.
  - destruct P as (_ & c & r & -> & _). reflexivity.
Qed.
Lemma exported_sound ns all name : plain_name name -> In name all -> exported regex ns name ->
  In name (parse_namespace_exports regex ns all).
Proof.
  intros P Ia E. destruct E as [args L A|pat q m L Hq Q1 Q2 Ne R M|generic class g c L Ag Ac Pg Pc ->|generic class g c f L Ag Ac Pg Pc Af|args L Np A|args L Np A].
  - destruct (ns_line_in ns _ L) as (x & Ix & Tx).
    { apply (directive_tight (lit "export(") args). exists 101%N, (lit "xport("). auto. } { discriminate. }
    apply (line_exports_in all ns x name Ix). rewrite (line_exports_eq all x _ Tx).
    2:{ exists 101%N, (lit "xport(" ++ args ++ lit ")"). split; auto. discriminate. }
    unfold directives. cbn [first_directive].
    change (lit "export(" ++ args ++ lit ")") with (lit "export" ++ lit "(" ++ args ++ lit ")").
    rewrite extract_here. unfold directive_exports.
    change (teqb (lit "export") (lit "exportPattern")) with false. change (teqb (lit "export") (lit "S3method")) with false.
    cbv iota. now apply list_names_among.
  - set (args := q ++ pat ++ q).
    assert (EL : lit "exportPattern(" ++ q ++ pat ++ q ++ lit ")" = lit "exportPattern(" ++ args ++ lit ")").
    { unfold args. now rewrite <- !app_assoc. }
    rewrite EL in L. destruct (ns_line_in ns _ L) as (x & Ix & Tx).
    { apply (directive_tight (lit "exportPattern(") args). exists 101%N, (lit "xportPattern("). auto. } { discriminate. }
    apply (line_exports_in all ns x name Ix). rewrite (line_exports_eq all x _ Tx).
    2:{ exists 101%N, (lit "xportPattern(" ++ args ++ lit ")"). split; auto. discriminate. }
    unfold directives. cbn [first_directive].
    assert (X : extract_directive (lit "exportPattern(" ++ args ++ lit ")") (lit "export") = None).
    { unfold extract_directive. assert (F : find_sub (lit "export" ++ lit "(") (args ++ lit ")") = None).
      { apply find_sub_none. intros a b E0. destruct b as [|z b _] using rev_ind.
        - rewrite app_nil_r in E0. change (lit "export" ++ lit "(") with (lit "export" ++ [40%N]) in E0.
          change (lit ")") with [41%N] in E0. rewrite app_assoc in E0. apply app_inj_tail in E0 as (_ & E0). discriminate.
        - rewrite !app_assoc in E0. change (lit ")") with [41%N] in E0. apply app_inj_tail in E0 as (E0 & _).
          rewrite <- !app_assoc in E0. unfold args in E0.
          assert (Cut : forall u : char, u <> 101%N -> u <> 40%N -> forall s t a b : text,
             s = [u] -> s ++ t ++ s = a ++ lit "export" ++ lit "(" ++ b -> exists a' b', t = a' ++ lit "export(" ++ b').
          { clear. intros u U1 U2 s t a b -> E. destruct a as [|y a]; [simpl in E; injection E as E _; congruence|].
            injection E as _ E. destruct b as [|w b _] using rev_ind.
            - exfalso. assert (E2 : t ++ [u] = (a ++ lit "export") ++ [40%N]) by (rewrite E, <- app_assoc; reflexivity).
              apply app_inj_tail in E2 as (_ & E2). congruence.
            - assert (E2 : t ++ [u] = (a ++ lit "export(" ++ b) ++ [w]) by (rewrite E, <- !app_assoc; reflexivity).
              apply app_inj_tail in E2 as (E2 & _). exists a, b. exact E2. }
          destruct Hq as [Hq|Hq].
          + destruct (Cut 34%N ltac:(discriminate) ltac:(discriminate) q pat a b Hq E0) as (a' & b' & Ep). now apply Ne in Ep.
          + destruct (Cut 39%N ltac:(discriminate) ltac:(discriminate) q pat a b Hq E0) as (a' & b' & Ep). now apply Ne in Ep. }
      revert F. generalize (args ++ lit ")"). intros t F.
      change (lit "export" ++ lit "(") with (lit "export(") in *.
      assert (S : find_sub (lit "export(") (lit "exportPattern(" ++ t) = None); [|now rewrite S].
      simpl in *. now rewrite F. }
    rewrite X.
    change (lit "exportPattern(" ++ args ++ lit ")") with (lit "exportPattern" ++ lit "(" ++ args ++ lit ")").
    rewrite extract_here. unfold directive_exports. rewrite teqb_refl.
    assert (Un : unquote args = pat).
    { destruct pat as [|p0 pat'] eqn:Ep.
      - unfold args. destruct Hq as [->| ->]; reflexivity.
      - rewrite <- Ep in *. apply unquote_arg; [subst; discriminate|now split| |].
        + right. exists [], q, []. unfold args. rewrite app_nil_r, Ep. repeat split; auto.
        + exists [], q, []. unfold args. rewrite app_nil_r, Ep. repeat split; auto. }
    rewrite Un, R. apply filter_In. auto.
  - (* S3method(generic, class) *)
    set (args := g ++ lit "," ++ c).
    assert (EL : lit "S3method(" ++ g ++ lit "," ++ c ++ lit ")" = lit "S3method(" ++ args ++ lit ")").
    { unfold args. now rewrite <- !app_assoc. }
    rewrite EL in L. destruct (ns_line_in ns _ L) as (x & Ix & Tx).
    { apply (directive_tight (lit "S3method(") args). exists 83%N, (lit "3method("). auto. } { discriminate. }
    apply (line_exports_in all ns x _ Ix). rewrite (line_exports_eq all x _ Tx).
    2:{ exists 83%N, (lit "3method(" ++ args ++ lit ")"). split; auto. discriminate. }
    assert (Np : ~ In 40%N (args ++ lit ")")).
    { unfold args. rewrite !in_app_iff. pose proof (arg_no generic g 40%N Pg Ag). pose proof (arg_no class c 40%N Pc Ac).
      simpl. intuition discriminate. }
    assert (X : forall d, (exists d0, d = lit "export" ++ d0) -> extract_directive (lit "S3method(" ++ args ++ lit ")") d = None).
    { intros d (d0 & ->). unfold extract_directive.
      assert (S : find_sub ((lit "export" ++ d0) ++ lit "(") (lit "S3method(" ++ args ++ lit ")") = None); [|now rewrite S].
      assert (F : find_sub ((lit "export" ++ d0) ++ lit "(") (args ++ lit ")") = None).
      { apply find_sub_none. intros a b E0. apply Np. rewrite E0, !in_app_iff. right. left. right. now left. }
      revert F. generalize (args ++ lit ")"). intros t F. simpl in *. now rewrite F. }
    unfold directives. cbn [first_directive].
    rewrite (X (lit "export")) by (now exists []). rewrite (X (lit "exportPattern")) by (now exists (lit "Pattern")).
    change (lit "S3method(" ++ args ++ lit ")") with (lit "S3method" ++ lit "(" ++ args ++ lit ")").
    rewrite extract_here. unfold directive_exports.
    change (teqb (lit "S3method") (lit "exportPattern")) with false. rewrite teqb_refl. cbv iota.
    unfold args. change (g ++ lit "," ++ c) with (g ++ 44%N :: c).
    rewrite split_on_app by (now apply (arg_no generic g); auto).
    rewrite split_on_single by (now apply (arg_no class c); auto). cbv iota.
    rewrite (plain_arg generic g Pg Ag), (plain_arg class c Pc Ac). left. f_equal.
    unfold strip_pkg. assert (F : find_sub (lit "::") (rev generic) = None); [|now rewrite F].
    apply find_sub_none. intros a b E0. destruct Pg as (Wg & _). rewrite Forall_forall in Wg.
    assert (I : In 58%N (rev generic)) by (rewrite E0, !in_app_iff; right; left; now left).
    apply in_rev, Wg in I. apply wordy_not_quote in I. tauto.
  - (* S3method(generic, class, function) *)
    set (args := g ++ lit "," ++ c ++ lit "," ++ f).
    assert (EL : lit "S3method(" ++ g ++ lit "," ++ c ++ lit "," ++ f ++ lit ")" = lit "S3method(" ++ args ++ lit ")").
    { unfold args. now rewrite <- !app_assoc. }
    rewrite EL in L. destruct (ns_line_in ns _ L) as (x & Ix & Tx).
    { apply (directive_tight (lit "S3method(") args). exists 83%N, (lit "3method("). auto. } { discriminate. }
    apply (line_exports_in all ns x _ Ix). rewrite (line_exports_eq all x _ Tx).
    2:{ exists 83%N, (lit "3method(" ++ args ++ lit ")"). split; auto. discriminate. }
    assert (Np : ~ In 40%N (args ++ lit ")")).
    { unfold args. rewrite !in_app_iff. pose proof (arg_no generic g 40%N Pg Ag). pose proof (arg_no class c 40%N Pc Ac).
      pose proof (arg_no name f 40%N P Af). simpl. intuition discriminate. }
    assert (X : forall d, (exists d0, d = lit "export" ++ d0) -> extract_directive (lit "S3method(" ++ args ++ lit ")") d = None).
    { intros d (d0 & ->). unfold extract_directive.
      assert (S : find_sub ((lit "export" ++ d0) ++ lit "(") (lit "S3method(" ++ args ++ lit ")") = None); [|now rewrite S].
      assert (F : find_sub ((lit "export" ++ d0) ++ lit "(") (args ++ lit ")") = None).
      { apply find_sub_none. intros a b E0. apply Np. rewrite E0, !in_app_iff. right. left. right. now left. }
      revert F. generalize (args ++ lit ")"). intros t F. simpl in *. now rewrite F. }
    unfold directives. cbn [first_directive].
    rewrite (X (lit "export")) by (now exists []). rewrite (X (lit "exportPattern")) by (now exists (lit "Pattern")).
    change (lit "S3method(" ++ args ++ lit ")") with (lit "S3method" ++ lit "(" ++ args ++ lit ")").
    rewrite extract_here. unfold directive_exports.
    change (teqb (lit "S3method") (lit "exportPattern")) with false. rewrite teqb_refl. cbv iota.
    unfold args. change (g ++ lit "," ++ c ++ lit "," ++ f) with (g ++ 44%N :: c ++ 44%N :: f).
    rewrite split_on_app by (now apply (arg_no generic g); auto).
    rewrite split_on_app by (now apply (arg_no class c); auto).
    rewrite split_on_single by (now apply (arg_no name f); auto). cbv iota.
    rewrite (plain_arg name f P Af). destruct P as (_ & y & r & -> & _). now left.
  - destruct (ns_line_in ns _ L) as (x & Ix & Tx).
    { apply (directive_tight (lit "exportMethods(") args). exists 101%N, (lit "xportMethods("). auto. } { discriminate. }
    apply (line_exports_in all ns x name Ix). rewrite (line_exports_eq all x _ Tx).
    2:{ exists 101%N, (lit "xportMethods(" ++ args ++ lit ")"). split; auto. discriminate. }
    assert (Nx : ~ In 40%N (args ++ lit ")")) by (rewrite in_app_iff; simpl; intuition discriminate).
    assert (X : forall d, In d [lit "export"; lit "exportPattern"; lit "S3method"] -> extract_directive (lit "exportMethods(" ++ args ++ lit ")") d = None).
    { intros d I. unfold extract_directive.
      assert (F : find_sub (d ++ lit "(") (args ++ lit ")") = None).
      { apply find_sub_none. intros a b E0. apply Nx. rewrite E0, !in_app_iff. right. left. right. now left. }
      assert (S : find_sub (d ++ lit "(") (lit "exportMethods(" ++ args ++ lit ")") = None); [|now rewrite S].
      revert F. generalize (args ++ lit ")"). intros t F. simpl in I. repeat (destruct I as [ <- |I]; [simpl in *; now rewrite F|]). destruct I. }
    unfold directives. cbn [first_directive].
    rewrite !X by (simpl; tauto).
    change (lit "exportMethods(" ++ args ++ lit ")") with (lit "exportMethods" ++ lit "(" ++ args ++ lit ")").
    rewrite extract_here. unfold directive_exports.
    change (teqb (lit "exportMethods") (lit "exportPattern")) with false. change (teqb (lit "exportMethods") (lit "S3method")) with false.
    cbv iota. now apply list_names_among.
  - destruct (ns_line_in ns _ L) as (x & Ix & Tx).
    { apply (directive_tight (lit "exportClasses(") args). exists 101%N, (lit "xportClasses("). auto. } { discriminate. }
    apply (line_exports_in all ns x name Ix). rewrite (line_exports_eq all x _ Tx).
    2:{ exists 101%N, (lit "xportClasses(" ++ args ++ lit ")"). split; auto. discriminate. }
    assert (Nx : ~ In 40%N (args ++ lit ")")) by (rewrite in_app_iff; simpl; intuition discriminate).
    assert (X : forall d, In d [lit "export"; lit "exportPattern"; lit "S3method"; lit "exportMethods"] -> extract_directive (lit "exportClasses(" ++ args ++ lit ")") d = None).
    { intros d I. unfold extract_directive.
      assert (F : find_sub (d ++ lit "(") (args ++ lit ")") = None).
      { apply find_sub_none. intros a b E0. apply Nx. rewrite E0, !in_app_iff. right. left. right. now left. }
      assert (S : find_sub (d ++ lit "(") (lit "exportClasses(" ++ args ++ lit ")") = None); [|now rewrite S].
      revert F. generalize (args ++ lit ")"). intros t F. simpl in I. repeat (destruct I as [ <- |I]; [simpl in *; now rewrite F|]). destruct I. }
    unfold directives. cbn [first_directive].
    rewrite !X by (simpl; tauto).
    change (lit "exportClasses(" ++ args ++ lit ")") with (lit "exportClasses" ++ lit "(" ++ args ++ lit ")").
    rewrite extract_here. unfold directive_exports.
    change (teqb (lit "exportClasses") (lit "exportPattern")) with false. change (teqb (lit "exportClasses") (lit "S3method")) with false.
    cbv iota. now apply list_names_among.
Qed.
End NS.
