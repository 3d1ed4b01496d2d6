(** Exclusion patterns and the position encoding. *)
From Verif Require Import Model.Text Model.Base Model.Rmd Model.Lsp Spec.LspSpec Proofs.TextProofs Proofs.SplitProofs Proofs.LspProofs.

Lemma ends_with_iff p t : ends_with p t = true <-> exists r, t = r ++ p.
Proof.
  unfold ends_with. rewrite starts_with_iff. split; intros (r & E).
  - exists (rev r). apply (f_equal (@rev N)) in E. now rewrite rev_involutive, rev_app_distr, rev_involutive in E.
  - exists (rev r). rewrite E. apply rev_app_distr.
Qed.
Lemma last_in {A} (l : list A) d : l <> [] -> In (last l d) l.
Proof. induction l as [|x l IH]; [easy|]. intros _. destruct l; [now left|]. right. apply IH. discriminate. Qed.
(** Components. *)
Lemma split_components x t : forall p, In p (split_on x t) <->
  ~ In x p /\ exists a b, t = a ++ p ++ b /\ (a = [] \/ exists a', a = a' ++ [x]) /\ (b = [] \/ exists b', b = x :: b').
Proof.
  remember (length t) as n. revert t Heqn. induction n as [n IH] using lt_wf_ind. intros t -> p.
  destruct (find_char x t) as [[h r]|] eqn:F.
  - apply find_char_some in F. destruct F as (-> & Hh). rewrite split_on_app by auto. cbn [In].
    assert (L : length r < length (h ++ x :: r)) by (rewrite app_length; cbn; lia). rewrite (IH _ L r eq_refl p). split.
    + intros [ <- |(Hp & a & b & -> & Ha & Hb)].
      * split; auto. exists [], (x :: r). cbn [app]. split; [reflexivity|]. split; [now left|]. right. eauto.
      * split; auto. exists (h ++ x :: a), b. rewrite <- app_assoc. split; auto. split; auto. right.
        destruct Ha as [ -> |(a' & ->)]; [exists h; auto|]. exists (h ++ x :: a'). now rewrite <- app_assoc.
    + intros (Hp & a & b & E & Ha & Hb). destruct Ha as [ -> |(a' & ->)].
      * left. cbn in E. destruct Hb as [ -> |(b' & ->)].
        -- rewrite app_nil_r in E. subst p. exfalso. apply Hp. apply in_or_app. right. now left.
        -- pose proof (proj2 (find_char_some x (h ++ x :: r) h r) (conj eq_refl Hh)) as F1. rewrite E in F1.
           rewrite (proj2 (find_char_some x (p ++ x :: b') p b')) in F1; auto. injection F1 as -> _. auto.
      * right. split; auto. rewrite <- app_assoc in E. cbn [app] in E. apply app_eq_app in E. destruct E as (l & [(-> & E)|(-> & E)]).
        -- destruct l as [|c l]; cbn in E; [|injection E as -> E; exfalso; apply Hh; apply in_or_app; right; now left].
           injection E as <-. exists [], b. auto.
        -- destruct l as [|c l]; cbn in E.
           ++ injection E as E. exists [], b. auto.
           ++ injection E as E1 E2. subst c r. exists (l ++ [x]), b. rewrite <- app_assoc. split; [reflexivity|]. split; [right; eauto|auto].
  - apply find_char_none in F. rewrite split_on_single by auto. cbn. split.
    + intros [ <- |[]]. split; auto. exists [], []. rewrite app_nil_r. auto.
    + intros (Hp & a & b & -> & Ha & Hb). left.
      destruct Ha as [ -> |(a' & ->)]; [|exfalso; apply F; apply in_or_app; left; apply in_or_app; right; now left].
      destruct Hb as [ -> |(b' & ->)]; [cbn; apply app_nil_r|]. exfalso; apply F. cbn. apply in_or_app; right; now left.
Qed.
Lemma components path c : In c (split_on 47%N path) <-> component path c.
Proof. apply split_components. Qed.
Lemma last_name path : base_name path (last_component path).
Proof.
  unfold base_name, last_component. remember (length path) as n. revert path Heqn. induction n as [n IH] using lt_wf_ind. intros t ->.
  destruct (find_char 47%N t) as [[h r]|] eqn:F.
  - apply find_char_some in F. destruct F as (-> & Hh). rewrite split_on_app by auto.
    assert (L : length r < length (h ++ 47%N :: r)) by (rewrite app_length; cbn; lia). destruct (IH _ L r eq_refl) as (H & a & E & Ha).
    assert (Q : @last text (h :: split_on 47%N r) [] = last (split_on 47%N r) []).
    { pose proof (split_on_nonempty 47%N r). destruct (split_on 47%N r); [easy|reflexivity]. }
    setoid_rewrite Q. split; auto. exists (h ++ 47%N :: a). split; [rewrite <- app_assoc; cbn; now rewrite <- E|]. right.
    destruct Ha as [ -> |(a' & ->)]; [exists h; auto|]. exists (h ++ 47%N :: a'). now rewrite <- app_assoc.
  - apply find_char_none in F. rewrite split_on_single by auto. cbn. split; auto. exists []. auto.
Qed.
Lemma file_name_fun path a b : base_name path a -> base_name path b -> a = b.
Proof.
  intros (Ha & x & E & Hx) (Hb & y & E' & Hy). rewrite E in E'. clear E path. revert b E' Hb.
  induction a as [|c a IH] using rev_ind; intros b E Hb.
  - rewrite app_nil_r in E. destruct b as [|c b _] using rev_ind; auto. exfalso. rewrite app_assoc in E.
    destruct Hx as [ -> |(z & ->)]; [now destruct ((y ++ b) : list N)|]. apply app_inj_tail in E. destruct E as (_ & <-). apply Hb. apply in_or_app. right. now left.
  - destruct b as [|d b _] using rev_ind.
    + exfalso. rewrite app_nil_r, app_assoc in E. destruct Hy as [ -> |(z & ->)]; [now destruct ((x ++ a) : list N)|].
      apply app_inj_tail in E. destruct E as (_ & ->). apply Ha. apply in_or_app. right. now left.
    + rewrite !app_assoc in E. apply app_inj_tail in E. destruct E as (E & ->). f_equal. apply IH; auto.
      * intros H. apply Ha. apply in_or_app. now left.
      * intros H. apply Hb. apply in_or_app. now left.
Qed.

(** Patterns with stars. *)
Fixpoint globs (ps : list text) (rest : text) : Prop :=
  match ps with [] => rest = [] | p :: r => exists y z, rest = y ++ p ++ z /\ globs r z end.
Lemma glob_literal (p q t : text) : ~ In 42%N p -> (glob (p ++ q) t <-> exists r, t = p ++ r /\ glob q r).
Proof.
  revert t. induction p as [|c p IH]; intros t H; cbn [app].
  - split; [intros G; exists t; auto|intros (r & -> & G); auto].
  - assert (c <> 42%N) by (intros ->; apply H; now left). assert (Hp : ~ In 42%N p) by (intros X; apply H; now right). split.
    + intros G. inversion G; subst; [easy|]. match goal with X : glob (p ++ q) _ |- _ => apply (IH _ Hp) in X; destruct X as (r & -> & X) end. exists r. auto.
    + intros (r & -> & G). cbn. constructor; auto. apply IH; auto. eauto.
Qed.
Lemma glob_parts ps : Forall (fun p => ~ In 42%N p) ps -> forall p t, ~ In 42%N p ->
  (glob (join_with 42%N (p :: ps)) t <-> exists r, t = p ++ r /\ globs ps r).
Proof.
  induction 1 as [|q ps Hq Hps IH]; intros p t Hp; cbn [join_with globs].
  - rewrite <- (app_nil_r p) at 1. rewrite glob_literal by auto. split; intros (r & -> & G); exists r; (split; [auto|]); [now inversion G|subst; constructor].
  - rewrite glob_literal by auto. split; intros (r & -> & G); exists r; (split; [auto|]).
    + inversion G as [|p' x t' G'|]; subst; [|easy]. apply IH in G'; auto. destruct G' as (z & -> & G'). exists x, z. auto.
    + destruct G as (y & z & -> & G). constructor. apply IH; eauto.
Qed.
Lemma find_after_some p t r : find_after p t = Some r -> exists y, t = y ++ p ++ r.
Proof.
  revert r. induction t as [|c t IH]; intros r; cbn [find_after].
  - destruct (strip_prefix p []) eqn:E; [|discriminate]. intros [= <-]. apply strip_prefix_iff in E. exists []. auto.
  - destruct (strip_prefix p (c :: t)) eqn:E.
    + intros [= <-]. apply strip_prefix_iff in E. exists []. auto.
    + intros H. apply IH in H. destruct H as (y & ->). exists (c :: y). auto.
Qed.
Lemma find_after_least p y z : exists w, find_after p (y ++ p ++ z) = Some (w ++ z).
Proof.
  induction y as [|c y IH].
  - exists []. cbn [app]. assert (E : strip_prefix p (p ++ z) = Some z) by apply strip_prefix_app. destruct (p ++ z); cbn [find_after]; now rewrite E.
  - cbn [app find_after]. destruct (strip_prefix p (c :: y ++ p ++ z)) as [r|] eqn:E; auto.
    apply strip_prefix_iff in E. change (c :: y ++ p ++ z) with ((c :: y) ++ p ++ z) in E.
    assert (L : length z <= length r) by (apply (f_equal (@length N)) in E; rewrite !app_length in E; cbn in E; lia).
    rewrite app_assoc in E. apply app_eq_app in E. destruct E as (l & [(_ & ->)|(_ & ->)]); [eauto|].
    rewrite app_length in L. assert (l = []) as -> by (destruct l; auto; cbn in L; lia). exists []. auto.
Qed.
Lemma in_order_more ps w z : parts_in_order ps z = true -> parts_in_order ps (w ++ z) = true.
Proof.
  revert w z. induction ps as [|p ps IH]; intros w z; cbn [parts_in_order]; auto.
  destruct (find_after p z) as [r|] eqn:E; [|discriminate]. apply find_after_some in E. destruct E as (y & ->). intros H.
  destruct (find_after_least p (w ++ y) r) as (v & F). rewrite <- app_assoc in F. rewrite F. now apply IH.
Qed.
Lemma greedy_complete ps z : globs ps z -> parts_in_order ps z = true.
Proof.
  revert z. induction ps as [|p ps IH]; intros z; cbn; auto. intros (y & r & -> & G).
  destruct (find_after_least p y r) as (w & F). rewrite F. apply in_order_more. auto.
Qed.
Lemma globs_suffix ps z : ps <> [] -> globs ps z -> exists r, z = r ++ last ps [].
Proof.
  revert z. induction ps as [|p ps IH]; intros z H; [easy|]. intros (y & r & -> & G). destruct ps as [|q ps].
  - cbn in *. subst r. rewrite app_nil_r. eauto.
  - change (last (p :: q :: ps) []) with (last (q :: ps) []). destruct (IH r ltac:(discriminate) G) as (s & ->).
    exists (y ++ p ++ s). now rewrite <- !app_assoc.
Qed.
Lemma greedy_sound ps f z : ps <> [] -> (exists r, f ++ z = r ++ last ps []) -> parts_in_order ps z = true -> globs ps z.
Proof.
  revert f z. induction ps as [|p ps IH]; intros f z H (r & Er); [easy|]. cbn [parts_in_order].
  destruct (find_after p z) as [z'|] eqn:E; [|discriminate]. apply find_after_some in E. destruct E as (y & ->). intros G.
  destruct ps as [|q ps].
  - cbn [globs]. cbn [last] in Er.
    assert (L : exists w, y ++ p ++ z' = w ++ p).
    { apply app_eq_app in Er. destruct Er as (l & [(-> & E)|(-> & E)]).
      - (* p = l ++ y ++ p ++ z' *)
        assert (X : length p = length (l ++ y ++ p ++ z')) by now rewrite <- E. rewrite !app_length in X.
        assert (y = []) as -> by (destruct y; auto; cbn in X; lia). assert (z' = []) as -> by (destruct z'; auto; cbn in X; lia). exists []. now rewrite app_nil_r.
      - eauto. }
    destruct L as (w & L). exists w, []. rewrite app_nil_r. auto.
  - exists y, z'. split; auto. apply (IH (f ++ y ++ p)); auto; [discriminate|]. exists r. rewrite <- !app_assoc. exact Er.
Qed.
Lemma star_pattern pattern name : In 42%N pattern ->
  (match split_on 42%N pattern with
   | [] => false
   | p :: ps => match strip_prefix p name with
                | None => false
                | Some rest => (match ps with [] => true | _ => ends_with (last ps []) name end) && parts_in_order ps rest
                end
   end = true <-> glob pattern name).
Proof.
  intros Hs. pose proof (split_on_join 42%N pattern) as J. pose proof (split_on_pieces 42%N pattern) as P.
  destruct (split_on 42%N pattern) as [|p ps] eqn:S; [now apply split_on_nonempty in S|].
  assert (Hps : ps <> []).
  { intros ->. cbn in J. subst p. apply (P pattern); [now left|auto]. }
  rewrite <- J at 1. rewrite glob_parts; [|apply Forall_forall; intros x Hx; apply P; now right|apply P; now left].
  destruct (strip_prefix p name) as [rest|] eqn:E.
  - apply strip_prefix_iff in E. subst name.
    assert (Q : (match ps with [] => true | _ => ends_with (last ps []) (p ++ rest) end) = ends_with (last ps []) (p ++ rest)) by now destruct ps.
    rewrite Q, andb_true_iff, ends_with_iff. split.
    + intros (H1 & H2). exists rest. split; auto. eapply greedy_sound; eauto.
    + intros (r & X & G). apply app_inv_head in X. subst r. split; [|now apply greedy_complete].
      destruct (globs_suffix _ _ Hps G) as (s & ->). exists (p ++ s). now rewrite <- app_assoc.
  - split; [discriminate|]. intros (r & -> & _). rewrite strip_prefix_app in E. discriminate.
Qed.
Lemma existsb_in x (t : text) : existsb (N.eqb x) t = true <-> In x t.
Proof.
  rewrite existsb_exists. split; [intros (y & H & E); apply N.eqb_eq in E; now subst|]. intros H. exists x. split; auto. apply N.eqb_refl.
Qed.
Lemma glob_plain pattern t : ~ In 42%N pattern -> (glob pattern t <-> t = pattern).
Proof.
  intros H. rewrite <- (app_nil_r pattern) at 1. rewrite glob_literal by auto. split.
  - intros (r & -> & G). inversion G. apply app_nil_r.
  - intros ->. exists []. rewrite app_nil_r. split; auto. constructor.
Qed.
(** File patterns match the file name, directory patterns any component. *)
Lemma file_pattern path pattern : (forall r, pattern <> r ++ [47%N]) ->
  (matches_pattern path pattern = true <-> exists f, base_name (normalize path) f /\ glob pattern f).
Proof.
  intros H. unfold matches_pattern. destruct (ends_with (lit "/") pattern) eqn:E.
  { apply ends_with_iff in E. destruct E as (r & E). now apply H in E. }
  clear E. assert (F : forall f, base_name (normalize path) f <-> f = last_component (normalize path)).
  { intros f. split; [intros X; eapply file_name_fun; eauto; apply last_name|intros ->; apply last_name]. }
  assert (G : (exists f, base_name (normalize path) f /\ glob pattern f) <-> glob pattern (last_component (normalize path))).
  { split; [intros (f & X & Y); apply F in X; now subst|]. intros X. eexists. split; [apply last_name|auto]. }
  rewrite G. destruct (existsb (N.eqb 42%N) pattern) eqn:S.
  - apply existsb_in in S. now apply star_pattern.
  - assert (~ In 42%N pattern) by (rewrite <- existsb_in, S; discriminate). rewrite glob_plain by auto. apply teqb_eq.
Qed.
Lemma trim_slashes_app r : (forall s, r <> s ++ [47%N]) -> forall n, trim_slashes (r ++ repeat 47%N n) = r.
Proof.
  intros H n. unfold trim_slashes. rewrite rev_app_distr.
  assert (R : rev (repeat 47%N n) = repeat 47%N n).
  { clear. induction n; auto. cbn [repeat rev]. rewrite IHn. clear. induction n; auto. cbn. now rewrite IHn. }
  rewrite R. clear R. assert (D : drop_while (N.eqb 47%N) (repeat 47%N n ++ rev r) = rev r).
  { induction n; cbn [repeat app]; auto. destruct r as [|c r _] using rev_ind; [reflexivity|]. rewrite rev_app_distr. cbn [rev app drop_while].
    destruct (N.eqb 47 c) eqn:E; auto. apply N.eqb_eq in E. subst c. now destruct (H r). }
  rewrite D. apply rev_involutive.
Qed.
Lemma directory_pattern path dir n : (forall s, dir <> s ++ [47%N]) ->
  (matches_pattern path (dir ++ repeat 47%N (S n)) = true <-> component (normalize path) dir).
Proof.
  intros H. unfold matches_pattern.
  assert (E : ends_with (lit "/") (dir ++ repeat 47%N (S n)) = true).
  { apply ends_with_iff. exists (dir ++ repeat 47%N n). rewrite <- app_assoc. f_equal. change (lit "/") with [47%N]. apply repeat_cons. }
  rewrite E, trim_slashes_app by auto. rewrite existsb_exists. rewrite <- components. split.
  - intros (x & Hx & E'). apply teqb_eq in E'. now subst.
  - intros Hx. exists dir. split; auto. apply teqb_refl.
Qed.
(** Patterns with a slash inside never match. *)
Lemma no_slash_glob a b f : ~ In 47%N f -> ~ glob (a ++ 47%N :: b) f.
Proof.
  revert f. induction a as [|c a IH]; intros f Hf G; cbn [app] in G; inversion G as [|p x t G'|c' p t Hc G']; subst.
  - apply Hf. now left.
  - eapply IH; [|exact G']. intros X. apply Hf. apply in_or_app. now right.
  - eapply IH; [|exact G']. intros X. apply Hf. now right.
Qed.
Lemma nested_pattern path a b n : b <> [] -> (forall s, b <> s ++ [47%N]) -> matches_pattern path (a ++ 47%N :: b ++ repeat 47%N n) = false.
Proof.
  intros Hb Hs. destruct (matches_pattern path (a ++ 47%N :: b ++ repeat 47%N n)) eqn:E; auto. exfalso.
  assert (Hs' : forall s, a ++ 47%N :: b <> s ++ [47%N]).
  { intros s X. destruct b as [|c b _] using rev_ind; [easy|]. change (a ++ 47%N :: b ++ [c]) with (a ++ (47%N :: b) ++ [c]) in X. rewrite app_assoc in X.
    apply app_inj_tail in X. destruct X as (_ & ->). now destruct (Hs b). }
  destruct n as [|n].
  - cbn [repeat] in E. rewrite app_nil_r in E. apply (file_pattern path _ Hs') in E. destruct E as (f & (Hf & _) & G). now apply no_slash_glob in G.
  - replace (a ++ 47%N :: b ++ repeat 47%N (S n)) with ((a ++ 47%N :: b) ++ repeat 47%N (S n)) in E by (now rewrite <- app_assoc).
    apply (directory_pattern path _ n Hs') in E. destruct E as (H & _). apply H. apply in_or_app. right. now left.
Qed.

(** The decision. *)
Lemma excluded_iff defaults de ex inc path : excluded defaults de ex inc path = true <->
  (exists p, (de <> Some false /\ In p defaults \/ exists l, ex = Some l /\ In p l) /\ matches_pattern path p = true) \/
  (exists l, inc = Some l /\ l <> [] /\ forall p, In p l -> matches_pattern path p = false).
Proof.
  unfold excluded.
  assert (P : existsb (matches_pattern path) ((if match de with Some b => b | None => true end then defaults else []) ++ match ex with Some l => l | None => [] end) = true <->
    exists p, (de <> Some false /\ In p defaults \/ exists l, ex = Some l /\ In p l) /\ matches_pattern path p = true).
  { rewrite existsb_exists. split; intros (p & H & E); exists p; (split; [|auto]).
    - apply in_app_or in H. destruct H as [H|H].
      + left. destruct de as [[|]|]; cbn in H; try easy; (split; [discriminate|auto]).
      + right. destruct ex as [l|]; [eauto|easy].
    - apply in_or_app. destruct H as [(H1 & H)|(l & -> & H)]; [left|now right]. destruct de as [[|]|]; try easy; now destruct H1. }
  assert (I : match inc with Some (p :: ps) => negb (existsb (matches_pattern path) (p :: ps)) | _ => false end = true <->
    exists l, inc = Some l /\ l <> [] /\ forall p, In p l -> matches_pattern path p = false).
  { destruct inc as [[|p ps]|].
    - split; [discriminate|]. intros (l & [= <-] & H & _). easy.
    - rewrite negb_true_iff. split.
      + intros E. exists (p :: ps). split; [auto|]. split; [discriminate|]. intros q Hq. destruct (matches_pattern path q) eqn:M; auto.
        rewrite <- E. symmetry. apply existsb_exists. eauto.
      + intros (l & [= <-] & _ & H). destruct (existsb (matches_pattern path) (p :: ps)) eqn:E; auto. apply existsb_exists in E. destruct E as (q & Hq & M). rewrite (H q Hq) in M; discriminate.
    - split; [discriminate|]. intros (l & [=] & _). }
  destruct (existsb _ _) eqn:E.
  - split; auto. intros _. left. now apply P.
  - rewrite I. split; auto. intros [H|H]; auto. apply P in H. discriminate.
Qed.

(** ** Encoding *)
Lemma offers_iff e l : offers e l = true <-> In (Some e) l.
Proof.
  unfold offers. rewrite existsb_exists. split.
  - intros ([x|] & H & E); [|discriminate]. destruct x, e; try discriminate; auto.
  - intros H. exists (Some e). split; auto. now destruct e.
Qed.
Lemma negotiate_ok offered : let e := negotiate offered in
  (e = UTF16 \/ exists l, offered = Some l /\ In (Some e) l) /\
  (e = UTF8 <-> exists l, offered = Some l /\ In (Some UTF8) l).
Proof.
  cbn. unfold negotiate. destruct offered as [l|].
  - destruct (offers UTF8 l) eqn:E.
    + apply offers_iff in E. split; [right; eauto|]. split; eauto.
    + assert (N : ~ In (Some UTF8) l) by (rewrite <- offers_iff, E; discriminate).
      assert (Q : (if offers UTF16 l then UTF16 else UTF16) = UTF16) by now destruct (offers UTF16 l). rewrite Q.
      split; [now left|]. split; [discriminate|]. intros (l' & [= <-] & H). easy.
  - split; [now left|]. split; [discriminate|]. intros (l & [=] & _).
Qed.

Lemma with_slashes_normalize path path' : with_slashes path path' -> path' = normalize path.
Proof.
  induction 1 as [|a b l l' H _ IH]; [reflexivity|]. cbn [normalize map]. fold (normalize l). rewrite <- IH. f_equal.
  destruct H as [[ -> -> ]|[H -> ]]; [reflexivity|]. destruct (N.eqb a 92) eqn:E; auto. apply N.eqb_eq in E. contradiction.
Qed.
Lemma with_slashes_exists path : with_slashes path (normalize path).
Proof.
  induction path as [|a l IH]; constructor; auto. destruct (N.eqb a 92) eqn:E; [left|right].
  - apply N.eqb_eq in E. auto.
  - apply N.eqb_neq in E. auto.
Qed.
