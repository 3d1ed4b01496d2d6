(** From the command line and the text of a file to the diagnostics; fixes as edits of the text. *)
From Verif Require Import Spec.RText Spec.RSearch Spec.ConfigSpec Proofs.TextProofs Proofs.RParse Proofs.RParseSound Proofs.RContext Proofs.CommentProofs Proofs.ReplaceText.
From Verif Require Import Model.Rules Proofs.ConfigProofs Proofs.RulesProofs Proofs.RSearchProofs Proofs.InPlace Proofs.RFuel Proofs.DriverProofs.

(** ** Fixes *)
Lemma text_reads : forall t ts p, text_tokens t ts -> reads ts p -> reads_text t p.
Proof. intros t ts p (pts & T & <-) R. exists pts. auto. Qed.
Lemma tokens_unique : forall t a b, text_tokens t a -> text_tokens t b -> a = b.
Proof. intros t a b (pa & T & <-) (pb & T' & <-). rewrite T in T'. injection T' as <-. reflexivity. Qed.

Section Fixed.
  Variables (s : Traverse.settings) (t t' : text) (p : prog) (j : nat) (fs : list frame) (e : expr) (n : text) (r : report) (x y : nat) (w : text) (e1 : expr).
  Hypothesis Rd : reads_text t p.
  Hypothesis St : nth_error p j = Some (plug fs e).
  Hypothesis Fi : fires s n fs e r.
  Hypothesis Nu : n <> lit "unreachable_code".
  Hypothesis Wr : written t j (at_frames r) (at_node r) x y.
  Hypothesis Nt : new_text r = Some (toks e1).
  Hypothesis Br : breplace x y w t = Some t'.
  Hypothesis Tw : text_tokens w (toks e1).
  Hypothesis Be : breaks_enclosed w.
  Hypothesis C1 : cut_at t' x.
  Hypothesis C2 : cut_at t' (x + blen w).
  Lemma same_file : file_with (place_in p j fs) e = p.
  Proof. unfold file_with, place_in. cbn [before frames after]. symmetry. exact (nth_split_at p j _ St). Qed.
  Lemma node_here : node_of_file (place_in p j fs) e.
  Proof.
    unfold node_of_file. rewrite edited_toks, same_file. destruct Rd as (pts & _ & R). destruct (proj1 (reads_iff _ _) R) as [E F]. apply reads_iff. auto.
  Qed.
  Lemma fixed_tokens : text_tokens t' (edited (fix_place (place_in p j fs) r) (toks e1)).
  Proof. destruct (replace_tokens t t' p j (at_frames r) (at_node r) x y w e1 Rd Wr Br Tw Be C1 C2) as (_ & _ & T). exact T. Qed.
  Lemma fixed_harmless : forall P, fix_harmless P (place_in p j fs) e r -> harmless_text P t t'.
  Proof.
    intros P H. destruct (H _ Nt) as (p1 & q & R1 & R2 & B). exists p1, q. split; [|split; [exact (text_reads _ _ _ fixed_tokens R2)|exact B]].
    pose proof node_here as N. unfold node_of_file in N. rewrite same_file in N. rewrite (reads_det _ _ _ R1 N). exact Rd.
  Qed.
  Lemma fixed_one : forall shape, fix_is_one_expression shape (place_in p j fs) r ->
    exists e', toks e' = toks e1 /\ shape e' /\ reads_text t' (file_with (fix_place (place_in p j fs) r) e').
  Proof.
    intros shape H. destruct (H _ Nt) as (e' & E & S & R). exists e'. split; [symmetry; exact E|]. split; [exact S|]. exact (text_reads _ _ _ fixed_tokens R).
  Qed.
End Fixed.

(** ** The rules that were asked for *)
Lemma reported_rule : forall c o u t ds d, only_functions u -> get_checks c o u t = Some ds -> In d ds ->
  exists r, In r (c_rules_to_apply c) /\ d_rule d = rule_name r.
Proof.
  intros c o u t ds d U H I. destruct (diag_from _ _ _ _ _ _ H I) as (ps & pts & p & fs & j & n & r & P & T & R & C & J & ->).
  destruct (filter_fix_shape c (diag_of (map snd pts) (comments true 0 (place_pieces 0 ps)) p (j, (n, r)))) as (E1 & _). rewrite E1. cbn [diag_of d_rule].
  apply (check_file_exact (settings_of c o u) _ _ U C) in J. destruct J as (e & f & x & _ & _ & _ & On & _). cbn [settings_of on] in On.
  apply existsb_exists in On. destruct On as (q & Iq & Eq). apply teqb_eq in Eq. eauto.
Qed.
Lemma applied_rule : forall a t descs c r, build_config a t descs = ROk c -> In r (c_rules_to_apply c) -> In r (c_rules c).
Proof.
  intros a t descs c r H I. apply build_inv in H. destruct H as (_ & _ & _ & _ & _ & A & _). rewrite A in I. unfold rules_to_apply in I.
  destruct (a_fix_only a); [apply filter_In in I; tauto|]. destruct (a_fix a), (a_unsafe a); try (apply filter_In in I; tauto). exact I.
Qed.
Lemma found_reported : forall c o u t ds p j fs e n r, only_functions u -> get_checks c o u t = Some ds -> reads_text t p ->
  nth_error p j = Some (plug fs e) -> reached fs e -> fires (settings_of c o u) n fs e r -> n <> lit "unreachable_code" ->
  exists d x y, In d ds /\ d_rule d = n /\ written t j (at_frames r) (at_node r) x y /\ d_start d = x /\ d_end d = y.
Proof.
  intros c o u t ds p j fs e n r U H (pts & T & R) N Re F Nu. unfold get_checks in H.
  destruct (pieces t) as [ps|]; [|discriminate]. rewrite T in H. rewrite (proj2 (parse_reads _ _) R) in H.
  destruct (check_file (settings_of c o u) p) as [found| |] eqn:C; try discriminate. injection H as <-.
  assert (I : In (j, (n, r)) found) by (apply (check_file_exact (settings_of c o u) _ _ U C); exists (plug fs e), fs, e; auto).
  destruct (report_written (settings_of c o u) _ _ _ _ _ _ _ U T R C I Nu) as (x & y & Sp & W).
  set (d0 := diag_of (map snd pts) (comments true 0 (place_pieces 0 ps)) p (j, (n, r))). destruct (filter_fix_shape c d0) as (E1 & E2 & E3 & _).
  exists (filter_fix c d0), x, y. split; [apply in_map, in_map_iff; exists (j, (n, r)); auto|]. rewrite E1, E2, E3. unfold d0. cbn [diag_of d_rule d_start d_end]. rewrite Sp. auto.
Qed.

(** Checking by computation where an expression is written. *)
Definition check_written (t : text) (j : nat) (fs : list frame) (e : expr) (x y : nat) : Prop :=
  match tokens t with
  | Some pts =>
      match parse (map fst pts) with
      | Some p =>
          let before := sep_before [TNl] (map toks (firstn j p)) ++ pre_toks fs in
          let mid := firstn (length (toks e)) (skipn (length before) pts) in
          nth_error p j = Some (plug fs e) /\ map fst (firstn (length before) pts) = before /\ map fst mid = toks e /\
          fst (snd (hd (TNl, (0, 0)) mid)) = x /\ snd (snd (last mid (TNl, (0, 0)))) = y
      | None => False
      end
  | None => False
  end.
Lemma is_written : forall t j fs e x y, check_written t j fs e x y -> written t j fs e x y.
Proof.
  intros t j fs e x y H. unfold check_written in H. destruct (tokens t) as [pts|] eqn:T; [|contradiction].
  destruct (parse (map fst pts)) as [p|] eqn:P; [|contradiction]. cbv zeta in H.
  set (before := sep_before [TNl] (map toks (firstn j p)) ++ pre_toks fs) in *. destruct H as (N & B & M & X & Y).
  set (mid := firstn (length (toks e)) (skipn (length before) pts)) in *. destruct mid as [|f m] eqn:Em.
  { destruct (toks_head e) as (k & ts & E & _). rewrite E in M. discriminate. }
  assert (Sp : pts = firstn (length before) pts ++ (f :: m) ++ skipn (length (toks e)) (skipn (length before) pts)).
  { rewrite <- Em. unfold mid. rewrite firstn_skipn, firstn_skipn. reflexivity. }
  assert (La : f :: m = removelast (f :: m) ++ [last (f :: m) (TNl, (0, 0))]) by (apply app_removelast_last; discriminate).
  apply parse_reads in P. exists p, (firstn (length before) pts), f, m, (last (f :: m) (TNl, (0, 0))), (skipn (length (toks e)) (skipn (length before) pts)).
  rewrite <- Sp. repeat split; auto. eexists. exact La.
Qed.

(** ** Which fixes are offered; without fixing nothing changes *)
Lemma fix_allowed : forall a toml descs c o u t ds d, only_functions u ->
  build_config a toml descs = ROk c -> get_checks c o u t = Some ds -> In d ds -> offers_fix d ->
  exists r, d_rule d = rule_name r /\ rule_fix r <> FixNone /\ ~ listed (toml_field s_unfixable toml) r /\
    (forall l, toml_field s_fixable toml = Some l -> lists l r) /\
    (a_fix a = true -> a_unsafe a = false -> a_fix_only a = false -> rule_fix r = FixSafe).
Proof.
  intros a toml descs c o u t ds d U H G I O. destruct (reported_rule _ _ _ _ _ _ U G I) as (r & Ir & E). exists r. split; [exact E|].
  destruct (diag_from _ _ _ _ _ _ G I) as (ps & pts & p & fs & j & n & r0 & P & T & R & C & J & Ed).
  set (d0 := diag_of (map snd pts) (comments true 0 (place_pieces 0 ps)) p (j, (n, r0))) in *.
  destruct (filter_fix_shape c d0) as (E1 & _). rewrite Ed in E, O. rewrite E1 in E. apply filter_fix_keeps in O. destruct O as (_ & _ & Hn & Hu & Hf).
  rewrite E in Hn, Hu, Hf. pose proof (safe_only a toml descs c H) as Safe. apply build_inv in H. destruct H as (_ & _ & _ & _ & _ & _ & _ & Un & F & _).
  assert (NN : rule_fix r <> FixNone).
  { intro X. apply Hn. apply in_names, filter_In. split; [exact Ir|]. unfold has_no_fix. rewrite X. reflexivity. }
  split; [exact NN|]. split; [intro X; apply Hu, Un, X|]. split.
  - intros l Hl. rewrite Hl in F. destruct (c_fixable c) as [l'|]; [|contradiction]. apply F, Hf. reflexivity.
  - intros A1 A2 A3. apply (Safe A1 A2 A3) in Ir. destruct Ir as [_ Ir]. destruct (rule_fix r); congruence.
Qed.
Lemma lint_read_only : forall a toml descs c o u n p fs fs' res,
  build_config a toml descs = ROk c -> a_fix a = false -> a_unsafe a = false ->
  jarl_check c o u n p fs = (fs', res) ->
  (forall q, fs' q = fs q) /\
  forall t, fs p = Some t -> res = Some (match get_checks c o u t with Some ds => Ok ds | None => Err ELint end).
Proof.
  intros a toml descs c o u n p fs fs' res H A1 A2 J. apply build_inv in H. destruct H as (_ & _ & _ & F1 & F2 & _).
  unfold jarl_check, fixing_mode in J. rewrite F1, F2, A1, A2 in J. cbn [orb] in J. apply check_path_readonly in J; [|reflexivity].
  destruct J as [S ->]. split; [exact S|]. intros t Ht. unfold lint_only. rewrite Ht. destruct (get_checks c o u t); reflexivity.
Qed.
