From Verif Require Import Model.Text Model.Base Model.Rules Model.Directive Spec.DirectiveSpec
  Proofs.TextProofs Proofs.RulesProofs.

Lemma colon_not_ws : is_ws 58%N = false.
Proof. reflexivity. Qed.
Lemma blank_no_colon w : blank w -> ~ In 58%N w.
Proof. intros H Hin. unfold blank in H. rewrite forallb_forall in H. apply H in Hin. discriminate. Qed.

Lemma rule_no_colon r : ~ In 58%N (rule_name r).
Proof.
  assert (H : forallb (fun r => negb (existsb (N.eqb 58) (rule_name r))) all_rules = true) by (vm_compute; reflexivity).
  rewrite forallb_forall in H. specialize (H r (all_rules_complete r)). apply negb_true_iff in H.
  intros Hin. assert (existsb (N.eqb 58) (rule_name r) = true); [|congruence].
  apply existsb_exists. exists 58%N. split; auto.
Qed.
Lemma rule_tight r : tight (rule_name r).
Proof. rewrite <- rule_name_trim. apply trim_tight. Qed.

Lemma lit_colon x : lit ":" ++ x = 58%N :: x.
Proof. reflexivity. Qed.

Lemma find_colon (b rest : text) : ~ In 58%N b -> find_char 58%N (b ++ lit ":" ++ rest) = Some (b, rest).
Proof. intros H. now apply find_char_some. Qed.

Lemma trim_is t m : tight m -> trim t = m <-> exists a b, blank a /\ blank b /\ t = a ++ m ++ b.
Proof.
  intros T. split.
  - intros <-. destruct (trim_spec t) as (a & b & H & Ha & Hb). eauto 6.
  - intros (a & b & Ha & Hb & ->). now apply trim_unique.
Qed.

Lemma no_colon3 (a m b : text) : blank a -> blank b -> ~ In 58%N m -> ~ @In char 58%N (a ++ m ++ b).
Proof.
  intros Ha Hb Hm H. apply in_app_or in H. destruct H as [H|H]; [now apply blank_no_colon in H|].
  apply in_app_or in H. destruct H as [H|H]; [auto|now apply blank_no_colon in H].
Qed.

Lemma trim_not_nil t : trim t <> [] <-> ~ blank t.
Proof. rewrite trim_nil. reflexivity. Qed.

Lemma parse_rule_split t : parse_rule_with_explanation t =
  match find_char 58%N t with
  | None => match trim t with [] => RPInvalid | _ => match from_name (trim t) with Some _ => RPMissing | None => RPMisnamed end end
  | Some (b, a) => match trim b with [] => RPInvalid | _ =>
      match from_name (trim b) with None => RPMisnamed | Some r => match trim a with [] => RPMissing | _ => RPValid r end end end
  end.
Proof. reflexivity. Qed.

(** ** Rule and reason *)
Lemma parse_rule_valid t r : parse_rule_with_explanation t = RPValid r <-> rule_and_reason r t.
Proof.
  rewrite parse_rule_split. split.
  - destruct (find_char 58%N t) as [[b a]|] eqn:F.
    2:{ destruct (trim t) as [|c l]; [discriminate|]. destruct (from_name (c :: l)); discriminate. }
    destruct (trim b) as [|c l] eqn:Tb; [discriminate|]. rewrite <- Tb.
    destruct (from_name (trim b)) as [r'|] eqn:N; [|discriminate].
    destruct (trim a) as [|c' l'] eqn:Ta; [discriminate|]. intros [= ->].
    apply from_name_iff in N. apply find_char_some in F. destruct F as (-> & Hn).
    apply (trim_is b (rule_name r) (rule_tight r)) in N. destruct N as (w1 & w2 & H1 & H2 & ->).
    exists w1, w2, a. repeat split; auto.
    + apply trim_not_nil. now rewrite Ta.
    + now rewrite <- !app_assoc.
  - intros (a & b & reason & Ha & Hb & Hr & ->).
    replace (a ++ rule_name r ++ b ++ lit ":" ++ reason) with ((a ++ rule_name r ++ b) ++ lit ":" ++ reason)
      by now rewrite <- !app_assoc.
    rewrite find_colon by (apply no_colon3; auto using rule_no_colon). cbv beta iota.
    rewrite (trim_unique a (rule_name r) b Ha Hb (rule_tight r)).
    destruct (rule_name r) as [|c l] eqn:E; [now apply rule_name_nonempty in E|]. rewrite <- E.
    rewrite from_name_name. apply trim_not_nil in Hr. now destruct (trim reason).
Qed.

Lemma parse_rule_missing t : parse_rule_with_explanation t = RPMissing <-> exists r, rule_no_reason r t.
Proof.
  rewrite parse_rule_split. split.
  - destruct (find_char 58%N t) as [[b a]|] eqn:F.
    + destruct (trim b) as [|c l] eqn:Tb; [discriminate|]. rewrite <- Tb.
      destruct (from_name (trim b)) as [r'|] eqn:N; [|discriminate].
      destruct (trim a) as [|c' l'] eqn:Ta; [|discriminate]. intros _.
      apply from_name_iff in N. apply find_char_some in F. destruct F as (-> & Hn).
      apply (trim_is b (rule_name r') (rule_tight r')) in N. destruct N as (w1 & w2 & H1 & H2 & ->).
      exists r', w1, w2, a. split; auto. split; auto. split; [now apply trim_nil|]. right. now rewrite <- !app_assoc.
    + destruct (trim t) as [|c l] eqn:Tb; [discriminate|]. rewrite <- Tb.
      destruct (from_name (trim t)) as [r'|] eqn:N; [|discriminate]. intros _.
      apply from_name_iff in N.
      apply (trim_is t (rule_name r') (rule_tight r')) in N. destruct N as (w1 & w2 & H1 & H2 & ->).
      exists r', w1, w2, []. repeat split; auto.
  - intros (r & a & b & c & Ha & Hb & Hc & H).
    assert (Hn := no_colon3 _ _ _ Ha Hb (rule_no_colon r)).
    assert (Ht := trim_unique a (rule_name r) b Ha Hb (rule_tight r)).
    destruct H as [->| ->].
    + rewrite (proj2 (find_char_none _ _) Hn). cbv beta iota. rewrite Ht.
      destruct (rule_name r) as [|c' l] eqn:E; [now apply rule_name_nonempty in E|]. rewrite <- E.
      now rewrite from_name_name.
    + replace (a ++ rule_name r ++ b ++ lit ":" ++ c) with ((a ++ rule_name r ++ b) ++ lit ":" ++ c)
        by now rewrite <- !app_assoc.
      rewrite (find_colon _ _ Hn). cbv beta iota. rewrite Ht.
      destruct (rule_name r) as [|c' l] eqn:E; [now apply rule_name_nonempty in E|]. rewrite <- E.
      rewrite from_name_name. apply trim_nil in Hc. now rewrite Hc.
Qed.

Lemma trim_split_unknown (t : text) : from_name (trim t) = None -> trim t <> [] -> ~ In 58%N t ->
  exists a w b, blank a /\ blank b /\ w <> [] /\ (forall r, w <> rule_name r) /\ no_blank_ends w /\
    ~ In 58%N w /\ t = a ++ w ++ b.
Proof.
  intros N Ne Nc. destruct (trim_spec t) as (a & b & H & Ha & Hb).
  exists a, (trim t), b. split; auto. split; auto. split; auto. split; [now apply from_name_none|].
  split; [apply trim_tight|]. split; auto. rewrite H in Nc. intros Hin. apply Nc.
  apply in_or_app. right. apply in_or_app. now left.
Qed.

Lemma parse_rule_misnamed t : parse_rule_with_explanation t = RPMisnamed <-> unknown_rule t.
Proof.
  rewrite parse_rule_split. split.
  - destruct (find_char 58%N t) as [[b a]|] eqn:F.
    + destruct (trim b) as [|c l] eqn:Tb; [discriminate|]. rewrite <- Tb.
      destruct (from_name (trim b)) as [r'|] eqn:N; [destruct (trim a); discriminate|]. intros _.
      apply find_char_some in F. destruct F as (-> & Hn).
      destruct (trim_split_unknown b N) as (x & w & y & H1 & H2 & H3 & H4 & H5 & H6 & ->); [now rewrite Tb|auto|].
      exists x, w, y. do 6 (split; auto). right. exists a. now rewrite <- !app_assoc.
    + destruct (trim t) as [|c l] eqn:Tb; [discriminate|]. rewrite <- Tb.
      destruct (from_name (trim t)) as [r'|] eqn:N; [discriminate|]. intros _.
      apply find_char_none in F.
      destruct (trim_split_unknown t N) as (x & w & y & H1 & H2 & H3 & H4 & H5 & H6 & ->); [now rewrite Tb|auto|].
      exists x, w, y. do 6 (split; auto).
  - intros (a & w & b & Ha & Hb & Hw & Hr & Ht & Hn & H).
    assert (Hn' := no_colon3 _ _ _ Ha Hb Hn). assert (Htr := trim_unique a w b Ha Hb Ht).
    assert (Hf : from_name w = None) by now apply from_name_none.
    destruct H as [->|(rest & ->)].
    + rewrite (proj2 (find_char_none _ _) Hn'). cbv beta iota. rewrite Htr. destruct w; [now destruct Hw|]. now rewrite Hf.
    + replace (a ++ w ++ b ++ lit ":" ++ rest) with ((a ++ w ++ b) ++ lit ":" ++ rest) by now rewrite <- !app_assoc.
      rewrite (find_colon _ _ Hn'). cbv beta iota. rewrite Htr. destruct w; [now destruct Hw|]. now rewrite Hf.
Qed.

(** A leading colon means there is no rule. *)
Lemma parse_rule_colon x : parse_rule_with_explanation (58%N :: x) = RPInvalid.
Proof. reflexivity. Qed.

(** ** The end directive *)
Definition before_colon (t : text) : text := match find_char 58%N t with Some (b, _) => b | None => t end.
Lemma before_colon_spec t : ~ In 58%N (before_colon t) /\
  (t = before_colon t \/ exists rest, t = before_colon t ++ lit ":" ++ rest).
Proof.
  unfold before_colon. destruct (find_char 58%N t) as [[b a]|] eqn:F.
  - apply find_char_some in F. destruct F as (-> & H). split; auto. right. now exists a.
  - apply find_char_none in F. auto.
Qed.
Lemma before_colon_none (t : text) : ~ In 58%N t -> before_colon t = t.
Proof. intros H. unfold before_colon. now rewrite (proj2 (find_char_none _ _) H). Qed.
Lemma before_colon_app (b rest : text) : ~ In 58%N b -> before_colon (b ++ lit ":" ++ rest) = b.
Proof. intros H. unfold before_colon. now rewrite (find_colon _ _ H). Qed.

Definition parse_end (a : text) : option parsed :=
  match parse_rule_only (before_colon a) with
  | Some r => Some (PValid (Dir KEnd r))
  | None => match trim (before_colon a) with [] => None | _ => Some PMisnamed end
  end.

Lemma parse_rule_only_some t r : parse_rule_only t = Some r <-> trim t = rule_name r.
Proof.
  unfold parse_rule_only. destruct (trim t) as [|c l] eqn:E.
  - split; [discriminate|]. intros H. symmetry in H. now apply rule_name_nonempty in H.
  - apply from_name_iff.
Qed.

Lemma parse_end_valid a r : parse_end a = Some (PValid (Dir KEnd r)) <-> rule_only r a.
Proof.
  unfold parse_end. split.
  - destruct (parse_rule_only (before_colon a)) as [r'|] eqn:E.
    2:{ destruct (trim (before_colon a)); discriminate. }
    intros [= ->]. apply parse_rule_only_some in E.
    apply (trim_is _ _ (rule_tight r)) in E. destruct E as (w1 & w2 & H1 & H2 & E).
    destruct (before_colon_spec a) as (_ & H). rewrite E in H. exists w1, w2. split; auto. split; auto.
    destruct H as [H|(rest & H)]; [left; exact H|right; exists rest; now rewrite H, <- !app_assoc].
  - intros (w1 & w2 & H1 & H2 & H).
    assert (Hn := no_colon3 _ _ _ H1 H2 (rule_no_colon r)).
    assert (Hb : before_colon a = w1 ++ rule_name r ++ w2).
    { destruct H as [->|(rest & ->)]; [now apply before_colon_none|].
      replace (w1 ++ rule_name r ++ w2 ++ lit ":" ++ rest) with ((w1 ++ rule_name r ++ w2) ++ lit ":" ++ rest)
        by now rewrite <- !app_assoc. now apply before_colon_app. }
    assert (parse_rule_only (before_colon a) = Some r) as ->; auto.
    apply parse_rule_only_some. rewrite Hb. apply trim_unique; auto. apply rule_tight.
Qed.

Lemma parse_end_misnamed a : parse_end a = Some PMisnamed <-> unknown_rule a.
Proof.
  unfold parse_end. split.
  - destruct (parse_rule_only (before_colon a)) as [r'|] eqn:E; [discriminate|].
    destruct (trim (before_colon a)) as [|c l] eqn:T; [discriminate|]. intros _.
    unfold parse_rule_only in E. rewrite T in E. rewrite <- T in E.
    destruct (before_colon_spec a) as (Nc & H).
    destruct (trim_split_unknown _ E) as (x & w & y & H1 & H2 & H3 & H4 & H5 & H6 & Hb); [now rewrite T|auto|].
    exists x, w, y. do 6 (split; auto). rewrite Hb in H.
    destruct H as [H|(rest & H)]; [left; exact H|right; exists rest; now rewrite H, <- !app_assoc].
  - intros (x & w & y & Ha & Hb & Hw & Hr & Ht & Hn & H).
    assert (Hn' := no_colon3 _ _ _ Ha Hb Hn). assert (Htr := trim_unique x w y Ha Hb Ht).
    assert (Hbc : before_colon a = x ++ w ++ y).
    { destruct H as [->|(rest & ->)]; [now apply before_colon_none|].
      replace (x ++ w ++ y ++ lit ":" ++ rest) with ((x ++ w ++ y) ++ lit ":" ++ rest)
        by now rewrite <- !app_assoc. now apply before_colon_app. }
    unfold parse_rule_only. rewrite Hbc, Htr. destruct w; [now destruct Hw|].
    now rewrite (proj2 (from_name_none _) Hr).
Qed.

Lemma parse_end_other a : parse_end a <> Some PBlanket /\ parse_end a <> Some PMissing /\
  (forall k r, k <> KEnd -> parse_end a <> Some (PValid (Dir k r))).
Proof.
  unfold parse_end. destruct (parse_rule_only _); [|destruct (trim _)]; repeat split; try discriminate.
  intros k r' Hk H. injection H as H _. congruence.
Qed.

(** ** The keyword *)
(** directive.rs:161-261 *)
Definition parse_rest (pipe : bool) (rest : text) : option parsed :=
  match strip_prefix (lit "-file ") rest with
  | Some a => if pipe then None else lift_rule KFile (parse_rule_with_explanation a)
  | None =>
  match strip_prefix (lit "-start ") rest with
  | Some a => if pipe then None else lift_rule KStart (parse_rule_with_explanation a)
  | None =>
  match strip_prefix (lit "-end ") rest with
  | Some a => if pipe then None else parse_end a
  | None =>
  match strip_prefix (lit " ") rest with
  | Some a => if pipe then None else if starts_with (lit ":") a then Some PBlanket
              else lift_rule KIgnore (parse_rule_with_explanation a)
  | None =>
  if match rest with [] => true | _ => starts_with (lit ":") rest end then
    if pipe then None else Some PBlanket
  else if teqb rest (lit "-chunk") || starts_with (lit "-chunk:") rest then Some PBlanket
  else
  match strip_prefix (lit "-chunk ") rest with
  | Some a => if starts_with (lit ":") a then Some PBlanket
              else lift_rule KChunk (parse_rule_with_explanation a)
  | None => None
  end end end end end.

Lemma parse_is t : parse_comment_directive t =
  match comment_prefix (trim_start t) with
  | None => None
  | Some (t, pipe) =>
      match strip_prefix (lit "jarl-ignore") t with None => None | Some rest => parse_rest pipe rest end
  end.
Proof. reflexivity. Qed.

Definition pre (pipe : bool) (p : text) : Prop := if pipe then p = lit "#| " else hash p.

Lemma comment_prefix_inv t u pipe : comment_prefix (trim_start t) = Some (u, pipe) ->
  exists w p, blank w /\ pre pipe p /\ t = w ++ p ++ u.
Proof.
  destruct (trim_start_spec t) as (w & Ht & Hw). unfold comment_prefix.
  destruct (strip_prefix (lit "#| ") (trim_start t)) as [r|] eqn:E1.
  { intros [= <- <-]. apply strip_prefix_iff in E1. rewrite E1 in Ht. exists w, (lit "#| "). split; auto. split; [|exact Ht]. reflexivity. }
  destruct (strip_prefix (lit "# ") (trim_start t)) as [r|] eqn:E2.
  { intros [= <- <-]. apply strip_prefix_iff in E2. rewrite E2 in Ht. exists w, (lit "# "). split; auto. split; [now left|exact Ht]. }
  destruct (strip_prefix (lit "#") (trim_start t)) as [r|] eqn:E3; [|discriminate].
  intros [= <- <-]. apply strip_prefix_iff in E3. rewrite E3 in Ht. exists w, (lit "#"). split; auto. split; [now right|exact Ht].
Qed.

Lemma comment_prefix_of w p pipe u : blank w -> pre pipe p ->
  comment_prefix (trim_start (w ++ p ++ lit "jarl-ignore" ++ u)) = Some (lit "jarl-ignore" ++ u, pipe).
Proof.
  intros Hw Hp. rewrite trim_start_ws by exact Hw. destruct pipe; cbn [pre] in Hp.
  - subst p. reflexivity.
  - destruct Hp as [->| ->]; reflexivity.
Qed.

(** A comment that parses is [# jarl-ignore...]. *)
Lemma parse_decompose t x : parse_comment_directive t = Some x <->
  exists w p pipe rest, blank w /\ pre pipe p /\ t = w ++ p ++ lit "jarl-ignore" ++ rest /\ parse_rest pipe rest = Some x.
Proof.
  rewrite parse_is. split.
  - destruct (comment_prefix (trim_start t)) as [[u pipe]|] eqn:E; [|discriminate].
    destruct (strip_prefix (lit "jarl-ignore") u) as [rest|] eqn:E2; [|discriminate]. intros H.
    apply strip_prefix_iff in E2. apply comment_prefix_inv in E. destruct E as (w & p & Hw & Hp & ->).
    exists w, p, pipe, rest. rewrite E2. auto.
  - intros (w & p & pipe & rest & Hw & Hp & -> & H). rewrite (comment_prefix_of _ _ _ _ Hw Hp).
    now rewrite strip_prefix_app.
Qed.

Lemma lift_valid k p k' r : lift_rule k p = Some (PValid (Dir k' r)) <-> k' = k /\ p = RPValid r.
Proof. destruct p; cbn; split; try discriminate; try (intros [_ H]; discriminate); intros H; [injection H as <- <-; auto|destruct H as [-> H]; injection H as ->; auto]. Qed.
Lemma lift_missing k p : lift_rule k p = Some PMissing <-> p = RPMissing.
Proof. destruct p; cbn; split; try discriminate; auto. Qed.
Lemma lift_misnamed k p : lift_rule k p = Some PMisnamed <-> p = RPMisnamed.
Proof. destruct p; cbn; split; try discriminate; auto. Qed.
Lemma lift_blanket k p : lift_rule k p <> Some PBlanket.
Proof. destruct p; cbn; discriminate. Qed.

Definition suffix (k : kind) : text :=
  match k with KIgnore => [] | KChunk => lit "-chunk" | KFile => lit "-file" | KStart => lit "-start" | KEnd => lit "-end" end.
Lemma keyword_suffix k : keyword k = lit "jarl-ignore" ++ suffix k.
Proof. destruct k; reflexivity. Qed.

Definition opens (k : kind) (pipe : bool) : Prop := pipe = true -> k = KChunk.
Definition parse_arg (k : kind) (a : text) : option parsed :=
  match k with KEnd => parse_end a | _ => lift_rule k (parse_rule_with_explanation a) end.

(** How [parse_rest] decides. *)
Lemma starts_colon a : starts_with (lit ":") a = true <-> exists x, a = 58%N :: x.
Proof. rewrite starts_with_iff. reflexivity. Qed.

Lemma parse_rest_arg k pipe a : opens k pipe -> (forall x, a <> 58%N :: x) ->
  parse_rest pipe (suffix k ++ lit " " ++ a) = parse_arg k a.
Proof.
  intros Ho Hc.
  assert (Hs : starts_with (lit ":") a = false).
  { destruct (starts_with (lit ":") a) eqn:E; auto. apply starts_colon in E. destruct E as (x & ->). now destruct (Hc x). }
  destruct pipe.
  - rewrite (Ho eq_refl). unfold parse_rest, parse_arg, suffix.
    change (lit "-chunk" ++ lit " " ++ a) with (lit "-chunk " ++ a). cbn [strip_prefix lit app N.eqb Pos.eqb Ascii.N_of_ascii Ascii.N_of_digits N.add N.mul Pos.add Pos.mul teqb starts_with andb orb].
    unfold starts_with in *. cbn in *. now rewrite Hs.
  - destruct k; unfold parse_rest, parse_arg, suffix; unfold starts_with in *; cbn in *; rewrite ?Hs; auto.
Qed.

Lemma parse_rest_colon k pipe x : opens k pipe ->
  parse_rest pipe (suffix k ++ lit " " ++ 58%N :: x) =
    match k with KIgnore | KChunk => Some PBlanket | _ => None end.
Proof.
  intros Ho. destruct pipe.
  - rewrite (Ho eq_refl). reflexivity.
  - destruct k; reflexivity.
Qed.

Lemma parse_rest_inv pipe rest v : parse_rest pipe rest = Some v ->
  (exists k a, opens k pipe /\ rest = suffix k ++ lit " " ++ a /\
     ((exists x, a = 58%N :: x) /\ (k = KIgnore \/ k = KChunk) /\ v = PBlanket \/
      (forall x, a <> 58%N :: x) /\ parse_arg k a = Some v)) \/
  (exists k, opens k pipe /\ (k = KIgnore \/ k = KChunk) /\ v = PBlanket /\
     (rest = suffix k \/ exists x, rest = suffix k ++ lit ":" ++ x)).
Proof.
  assert (Arg : forall k a, opens k pipe -> rest = suffix k ++ lit " " ++ a -> parse_rest pipe rest = Some v ->
    exists k a, opens k pipe /\ rest = suffix k ++ lit " " ++ a /\
     ((exists x, a = 58%N :: x) /\ (k = KIgnore \/ k = KChunk) /\ v = PBlanket \/
      (forall x, a <> 58%N :: x) /\ parse_arg k a = Some v)).
  { intros k a Ho -> H. exists k, a. split; auto. split; auto.
    destruct a as [|c a']; [right|destruct (N.eq_dec c 58) as [->|Hc]; [left|right]].
    - split; [discriminate|]. now rewrite parse_rest_arg in H.
    - split; [now exists a'|]. rewrite parse_rest_colon in H by auto. destruct k; try discriminate; injection H as <-; auto.
    - split; [intros x [= ? ?]; contradiction|]. rewrite parse_rest_arg in H; auto. intros x [= ? ?]; contradiction. }
  intros H. generalize H. unfold parse_rest.
  destruct (strip_prefix (lit "-file ") rest) as [a|] eqn:E1.
  { destruct pipe eqn:Ep; [discriminate|]. intros _. left. apply strip_prefix_iff in E1.
    apply (Arg KFile a); auto. intros [=]. }
  destruct (strip_prefix (lit "-start ") rest) as [a|] eqn:E2.
  { destruct pipe eqn:Ep; [discriminate|]. intros _. left. apply strip_prefix_iff in E2.
    apply (Arg KStart a); auto. intros [=]. }
  destruct (strip_prefix (lit "-end ") rest) as [a|] eqn:E3.
  { destruct pipe eqn:Ep; [discriminate|]. intros _. left. apply strip_prefix_iff in E3.
    apply (Arg KEnd a); auto. intros [=]. }
  destruct (strip_prefix (lit " ") rest) as [a|] eqn:E4.
  { destruct pipe eqn:Ep; [discriminate|]. intros _. left. apply strip_prefix_iff in E4.
    apply (Arg KIgnore a); auto. intros [=]. }
  destruct (match rest with [] => true | _ => starts_with (lit ":") rest end) eqn:E5.
  { destruct pipe eqn:Ep; [discriminate|]. intros [= <-]. right. exists KIgnore.
    split; [intros [=]|]. split; auto. split; auto. destruct rest as [|c rest]; [now left|right].
    apply starts_with_iff in E5. destruct E5 as (x & E5). exists x. exact E5. }
  destruct (teqb rest (lit "-chunk") || starts_with (lit "-chunk:") rest) eqn:E6.
  { intros [= <-]. right. exists KChunk. split; [intros _; auto|]. split; auto. split; auto.
    apply orb_prop in E6. destruct E6 as [E6|E6]; [left; now apply teqb_eq in E6|right].
    apply starts_with_iff in E6. destruct E6 as (x & E6). exists x. exact E6. }
  destruct (strip_prefix (lit "-chunk ") rest) as [a|] eqn:E7; [|discriminate].
  intros _. left. apply strip_prefix_iff in E7. apply (Arg KChunk a); auto. intros _. reflexivity.
Qed.

Lemma opening_pre k pipe p : opens k pipe -> pre pipe p -> opening k p.
Proof. intros Ho Hp. destruct pipe; cbn in Hp; [right; split; auto|left; auto]. Qed.
Lemma pre_opening k p : opening k p -> exists pipe, opens k pipe /\ pre pipe p.
Proof. intros [H|(H & H')]; [exists false; split; auto; intros [=]|exists true; split; auto; intros _; auto]. Qed.

Lemma arg_first_not_colon k a v : parse_arg k a = Some v -> forall x, a <> 58%N :: x.
Proof. intros H x ->. destruct k; discriminate. Qed.

(** The parser, in terms of the shape of the comment. *)
Lemma parse_some t v : parse_comment_directive t = Some v <->
  (exists k a, directive_text k a t /\ parse_arg k a = Some v) \/ (v = PBlanket /\ blanket_text t).
Proof.
  split.
  - intros H. apply parse_decompose in H. destruct H as (w & p & pipe & rest & Hw & Hp & -> & H).
    apply parse_rest_inv in H. destruct H as [(k & a & Ho & -> & [((x & ->) & Hk & ->)|(Hc & Ha)])|(k & Ho & Hk & -> & Hr)].
    + right. split; auto. exists k, w, p, (lit " :" ++ x). split; auto. split; auto.
      split; [eapply opening_pre; eauto|]. split; [|eauto]. now rewrite keyword_suffix, <- !app_assoc.
    + left. exists k, a. split; auto. exists w, p. split; auto. split; [eapply opening_pre; eauto|].
      now rewrite keyword_suffix, <- !app_assoc.
    + right. split; auto. assert (Hop : opening k p) by (eapply opening_pre; eauto).
      destruct Hr as [->|(x & ->)].
      * exists k, w, p, []. rewrite app_nil_r, keyword_suffix. auto 10.
      * exists k, w, p, (lit ":" ++ x). split; auto. split; auto. split; auto.
        split; [now rewrite keyword_suffix, <- !app_assoc|eauto].
  - intros [(k & a & (w & p & Hw & Hop & ->) & Ha)|(-> & k & w & p & tail & Hk & Hw & Hop & -> & Ht)].
    + apply parse_decompose. destruct (pre_opening _ _ Hop) as (pipe & Ho & Hp).
      exists w, p, pipe, (suffix k ++ lit " " ++ a). split; auto. split; auto.
      split; [now rewrite keyword_suffix, <- !app_assoc|].
      rewrite parse_rest_arg; auto. eapply arg_first_not_colon; eauto.
    + apply parse_decompose. destruct (pre_opening _ _ Hop) as (pipe & Ho & Hp).
      exists w, p, pipe, (suffix k ++ tail). split; auto. split; auto.
      split; [now rewrite keyword_suffix, <- !app_assoc|].
      destruct Ht as [->|[(x & ->)|(x & ->)]].
      * rewrite app_nil_r. destruct Hk as [->| ->]; [|reflexivity]. destruct pipe; [now specialize (Ho eq_refl)|reflexivity].
      * destruct Hk as [->| ->]; [|reflexivity]. destruct pipe; [now specialize (Ho eq_refl)|reflexivity].
      * change (lit " :" ++ x) with (lit " " ++ 58%N :: x). rewrite parse_rest_colon by auto.
        destruct Hk as [->| ->]; reflexivity.
Qed.

Theorem parse_valid t k r : parse_comment_directive t = Some (PValid (Dir k r)) <->
  exists arg, directive_text k arg t /\ (if match k with KEnd => true | _ => false end then rule_only r arg else rule_and_reason r arg).
Proof.
  rewrite parse_some. split.
  - intros [(k' & a & Hd & Ha)|([=] & _)]. exists a.
    destruct k'; cbn [parse_arg] in Ha; try (apply lift_valid in Ha; destruct Ha as (-> & Ha); apply parse_rule_valid in Ha; auto).
    assert (k = KEnd).
    { destruct (parse_end_other a) as (_ & _ & H). destruct k; auto; now apply H in Ha. }
    subst k. apply parse_end_valid in Ha. auto.
  - intros (a & Hd & Ha). left. exists k, a. split; auto.
    destruct k; cbn [parse_arg]; try (apply lift_valid; split; auto; now apply parse_rule_valid).
    now apply parse_end_valid.
Qed.

Theorem parse_missing t : parse_comment_directive t = Some PMissing <->
  exists k r arg, k <> KEnd /\ directive_text k arg t /\ rule_no_reason r arg.
Proof.
  rewrite parse_some. split.
  - intros [(k & a & Hd & Ha)|([=] & _)].
    destruct k; cbn [parse_arg] in Ha;
      try (apply lift_missing in Ha; apply parse_rule_missing in Ha; destruct Ha as (r & Ha); eexists _, r, a; split; [|eauto]; discriminate).
    now destruct (parse_end_other a) as (_ & H & _).
  - intros (k & r & a & Hk & Hd & Ha). left. exists k, a. split; auto.
    destruct k; cbn [parse_arg]; try (apply lift_missing, parse_rule_missing; eauto). now destruct Hk.
Qed.

Theorem parse_misnamed t : parse_comment_directive t = Some PMisnamed <->
  exists k arg, directive_text k arg t /\ unknown_rule arg.
Proof.
  rewrite parse_some. split.
  - intros [(k & a & Hd & Ha)|([=] & _)]. exists k, a. split; auto.
    destruct k; cbn [parse_arg] in Ha; try (apply lift_misnamed in Ha; now apply parse_rule_misnamed in Ha).
    now apply parse_end_misnamed.
  - intros (k & a & Hd & Ha). left. exists k, a. split; auto.
    destruct k; cbn [parse_arg]; try (apply lift_misnamed; now apply parse_rule_misnamed).
    now apply parse_end_misnamed.
Qed.

Theorem parse_blanket t : parse_comment_directive t = Some PBlanket <-> blanket_text t.
Proof.
  rewrite parse_some. split.
  - intros [(k & a & Hd & Ha)|(_ & H)]; auto. exfalso.
    destruct k; cbn [parse_arg] in Ha; try (now apply lift_blanket in Ha).
    now destruct (parse_end_other a) as (H & _).
  - intros H. right. auto.
Qed.

(** ** Quarto arrays *)
Lemma header_tight : tight (lit "#| jarl-ignore-chunk:").
Proof.
  split.
  - intros c r [= <- _]. reflexivity.
  - intros r c H. change (lit "#| jarl-ignore-chunk:") with (lit "#| jarl-ignore-chunk" ++ [58%N]) in H.
    apply app_inj_tail in H. destruct H as (_ & <-). reflexivity.
Qed.
Theorem header_iff t : is_array_header t = true <-> header_text t.
Proof.
  unfold is_array_header. rewrite teqb_eq. rewrite (trim_is t _ header_tight). split.
  - intros (a & b & Ha & Hb & H). exists a, b; auto.
  - intros (a & b & Ha & Hb & H). exists a, b; auto.
Qed.

Lemma trim_pad (a t b : text) : blank a -> blank b -> trim (a ++ t ++ b) = trim t.
Proof.
  intros Ha Hb. apply (trim_is (a ++ t ++ b) (trim t) (trim_tight t)).
  destruct (trim_spec t) as (w1 & w2 & H & H1 & H2). exists (a ++ w1), (w2 ++ b).
  unfold blank in *. rewrite !forallb_app, Ha, Hb, H1, H2. split; auto. split; auto.
  rewrite H at 1. now rewrite <- !app_assoc.
Qed.
Lemma blank_app a b : blank (a ++ b) <-> blank a /\ blank b.
Proof. unfold blank. rewrite forallb_app. rewrite andb_true_iff. tauto. Qed.

Lemma parse_rule_pad (a t b : text) : blank a -> blank b ->
  parse_rule_with_explanation (a ++ t ++ b) = parse_rule_with_explanation t.
Proof.
  intros Ha Hb. rewrite !parse_rule_split. destruct (find_char 58%N t) as [[x y]|] eqn:F.
  - apply find_char_some in F. destruct F as (-> & Hx).
    assert (F' : find_char 58%N (a ++ (x ++ 58%N :: y) ++ b) = Some (a ++ x, y ++ b)).
    { apply find_char_some. split; [now rewrite <- !app_assoc|].
      intros H. apply in_app_or in H. destruct H; [now apply (blank_no_colon a Ha)|auto]. }
    unfold char in *. rewrite F'. fold char in *.
    assert (E : trim (a ++ x) = trim x).
    { rewrite <- (trim_pad a x [] Ha) by reflexivity. now rewrite app_nil_r. }
    unfold char in *. rewrite E. destruct (trim x) eqn:Tx; auto. rewrite <- Tx. destruct (from_name (trim x)); auto.
    assert (E2 : trim (y ++ b) = trim y).
    { rewrite <- (trim_pad [] y b) by (auto; reflexivity). reflexivity. }
    unfold char in *. now rewrite E2.
  - apply find_char_none in F.
    rewrite (proj2 (find_char_none _ _) (no_colon3 a t b Ha Hb F)). rewrite (trim_pad a t b Ha Hb). reflexivity.
Qed.

Lemma parse_rule_blank t : blank t -> parse_rule_with_explanation t = RPInvalid.
Proof.
  intros H. rewrite parse_rule_split. rewrite (proj2 (find_char_none _ _) (blank_no_colon t H)).
  apply trim_nil in H. now rewrite H.
Qed.

Theorem parse_item_iff t v : parse_array_item t = Some v <->
  exists item, item_text item t /\ lift_rule KChunk (parse_rule_with_explanation item) = Some v.
Proof.
  unfold parse_array_item. split.
  - destruct (strip_prefix (lit "#|") (trim t)) as [rest|] eqn:E1; [|discriminate].
    destruct (strip_prefix (lit "-") (trim_start rest)) as [rest'|] eqn:E2; [|discriminate].
    destruct rest' as [|c item]; [discriminate|].
    destruct (is_ws c) eqn:Hc; [|discriminate].
    destruct (trim_start (c :: item)) as [|c' i'] eqn:E3; [discriminate|]. rewrite <- E3. intros H.
    apply strip_prefix_iff in E1, E2. destruct (trim_spec t) as (w1 & w2 & Ht & H1 & H2).
    destruct (trim_start_spec rest) as (w & Hr & Hw).
    destruct (trim_start_spec (c :: item)) as (u & Hu & Hu').
    exists (item ++ w2). split.
    + exists w1, w, c. split; auto. split; auto. split; auto.
      rewrite Ht, E1, Hr, E2. now rewrite <- !app_assoc.
    + rewrite <- H. f_equal. destruct u as [|c0 u].
      { cbn [app] in Hu. rewrite <- Hu in E3. injection E3 as -> _. symmetry in Hu. apply trim_start_head in Hu. congruence. }
      cbn [app] in Hu. injection Hu as <- Hu.
      replace (item ++ w2) with (u ++ trim_start (c :: item) ++ w2).
      2:{ rewrite Hu at 2. now rewrite <- app_assoc. }
      apply parse_rule_pad; auto. cbn in Hu'. apply andb_prop in Hu'. tauto.
  - intros (item & (w & w' & c & Hw & Hw' & Hc & ->) & H).
    destruct (trim_end_spec item) as (b & Hi & Hb). set (i := trim_end item) in *.
    assert (Ne : i <> []).
    { intros E. unfold i in E. apply trim_end_nil in E. now rewrite parse_rule_blank in H. }
    assert (Ht : trim (w ++ lit "#|" ++ w' ++ lit "-" ++ c :: item) = lit "#|" ++ w' ++ lit "-" ++ c :: i).
    { apply trim_is.
      - split; [intros x r [= <- _]; reflexivity|].
        intros r x E. destruct (exists_last Ne) as (i0 & y & Ei).
        rewrite Ei in E. replace (lit "#|" ++ w' ++ lit "-" ++ c :: i0 ++ [y]) with ((lit "#|" ++ w' ++ lit "-" ++ c :: i0) ++ [y]) in E.
        2:{ rewrite <- !app_assoc. reflexivity. }
        apply app_inj_tail in E. destruct E as (_ & <-).
        unfold i, trim_end in Ei. apply (f_equal (@rev _)) in Ei. rewrite rev_involutive, rev_app_distr in Ei.
        now apply trim_start_head in Ei.
      - exists w, b. split; auto. split; auto. rewrite Hi at 1. now rewrite <- !app_assoc. }
    rewrite Ht. rewrite (strip_prefix_app (lit "#|")). rewrite trim_start_ws by auto.
    change (trim_start (lit "-" ++ c :: i)) with (lit "-" ++ c :: i). rewrite strip_prefix_app.
    rewrite Hc. assert (Hs : trim_start (c :: i) = trim_start i) by (cbn; now rewrite Hc). rewrite Hs.
    destruct (trim_start_spec i) as (u & Hu & Hu').
    assert (E : parse_rule_with_explanation (trim_start i) = parse_rule_with_explanation item).
    { rewrite Hi. replace (i ++ b) with (u ++ trim_start i ++ b).
      - symmetry. now apply parse_rule_pad.
      - rewrite Hu at 2. now rewrite <- app_assoc. }
    destruct (trim_start i) as [|x l] eqn:Ti.
    + rewrite parse_rule_blank in E by reflexivity. now rewrite <- E in H.
    + now rewrite E.
Qed.

(** ** Comments that do not mention jarl-ignore are not directives *)
Lemma parse_contains t v : parse_comment_directive t = Some v -> contains (lit "jarl-ignore") t = true.
Proof.
  intros H. apply parse_decompose in H. destruct H as (w & p & pipe & rest & _ & _ & -> & _).
  apply contains_iff. exists (w ++ p), rest. now rewrite <- !app_assoc.
Qed.
Lemma header_contains t : is_array_header t = true -> contains (lit "jarl-ignore") t = true.
Proof.
  intros H. apply header_iff in H. destruct H as (w & w' & _ & _ & ->).
  apply contains_iff. exists (w ++ lit "#| "), (lit "-chunk:" ++ w'). now rewrite <- !app_assoc.
Qed.
