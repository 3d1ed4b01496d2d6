(** true_false_symbol on the text of a file; runs in which no rule has a fix. *)
From Verif Require Import Model.Config Model.Rules Spec.RSpelling Spec.RSearch Spec.FixSpec Spec.DriverSpec Proofs.TextProofs Proofs.FixProofs Proofs.DriverProofs Proofs.RParse Proofs.RParseSound Proofs.RFuel Proofs.RContext
  Proofs.RSearchProofs Proofs.ConfigProofs Proofs.CommentProofs Proofs.WholeProofs Proofs.PassProofs Proofs.FileProofs Proofs.FileRefute Proofs.ZeroSearch Spec.RLex.

(** ** No rule has a fix *)
Definition no_fixes (c : config) : Prop := forall r, In r (c_rules_to_apply c) -> has_no_fix r = true.
Lemma in_mem : forall n l, In n l -> mem n l = true.
Proof. intros n l I. unfold mem. apply existsb_exists. exists n. split; [exact I|apply teqb_refl]. Qed.
Lemma quiet_diags : forall c o u t ds, only_functions u -> no_fixes c -> get_checks c o u t = Some ds -> Forall (fun d => is_empty_fix (d_fix d) = true) ds.
Proof.
  intros c o u t ds U Q H. apply Forall_forall. intros d I. destruct (reported_rule _ _ _ _ _ _ U H I) as (r & Ir & Er).
  destruct (diag_from _ _ _ _ _ _ H I) as (ps & pts & p & fs & j & n & rr & _ & _ & _ & _ & _ & ->).
  match goal with |- context [filter_fix c ?x] => set (d0 := x) in * end. destruct (filter_fix_shape c d0) as (E1 & _). rewrite E1 in Er.
  assert (M : mem (d_rule d0) (map rule_name (filter has_no_fix (c_rules_to_apply c))) = true).
  { apply in_mem. rewrite Er. apply in_map. apply filter_In. auto. }
  unfold filter_fix. cbv zeta. rewrite M.
  repeat match goal with |- context [if ?b then _ else _] => destruct b end; destruct (c_fixable c); repeat match goal with |- context [if ?b then _ else _] => destruct b end; reflexivity.
Qed.
Lemma quiet_step : forall c o u p fs j fs' j', only_functions u -> no_fixes c -> (forall sk out, j = JWrite sk out -> fs p = Some out) ->
  jstep (fun (_ : path) t => get_checks c o u t) (fun _ => true) p fs j = (fs', j') ->
  (forall q, fs' q = fs q) /\ (forall sk out, j' = JWrite sk out -> fs' p = Some out).
Proof.
  intros c o u p fs j fs' j' U Q Inv E. destruct j as [sk|sk out|x]; cbn [jstep] in E.
  - destruct (fs p) as [t|] eqn:F; [|injection E as <- <-; split; [reflexivity|discriminate]]. destruct sk; [|].
    + destruct (get_checks c o u t) as [ds|] eqn:G; [|injection E as <- <-; split; [reflexivity|discriminate]].
      rewrite (apply_fixes_empty _ t (no_real_fixes _ (quiet_diags _ _ _ _ _ U Q G))) in E. injection E as <- <-. split; [reflexivity|]. intros sk out [= <- <-]. exact F.
    + destruct (get_checks c o u t); injection E as <- <-; (split; [reflexivity|discriminate]).
  - injection E as <- <-. split; [|discriminate]. intros q. unfold upd. destruct (teqb q p) eqn:Eq; [|reflexivity]. apply teqb_eq in Eq. subst q. symmetry. exact (Inv _ _ eq_refl).
  - injection E as <- <-. split; [reflexivity|exact Inv].
Qed.
Lemma quiet_run : forall n c o u p fs j fs' j', only_functions u -> no_fixes c -> (forall sk out, j = JWrite sk out -> fs p = Some out) ->
  jrun (fun (_ : path) t => get_checks c o u t) (fun _ => true) n p fs j = (fs', j') -> forall q, fs' q = fs q.
Proof.
  induction n as [|n IH]; intros c o u p fs j fs' j' U Q Inv E q; cbn [jrun] in E; [injection E as <- <-; reflexivity|].
  destruct (jstep _ _ p fs j) as [fs1 j1] eqn:S. destruct (quiet_step _ _ _ _ _ _ _ _ U Q Inv S) as [H1 H2]. rewrite (IH _ _ _ _ _ _ _ _ U Q H2 E q). apply H1.
Qed.
Theorem quiet_check : forall c o u n p fs fs' r, only_functions u -> no_fixes c -> jarl_check c o u n p fs = (fs', r) -> forall q, fs' q = fs q.
Proof.
  intros c o u n p fs fs' r U Q E. unfold jarl_check, check_path in E.
  destruct (jrun _ _ n p fs _) as [f1 j1] eqn:J in E. assert (H : forall q, f1 q = fs q).
  { refine (quiet_run _ _ _ _ _ _ _ _ _ U Q _ J). intros sk out. unfold check_path_start. repeat match goal with |- context [if ?b then _ else _] => destruct b end; discriminate. }
  destruct j1; injection E as <- _; exact H.
Qed.

Lemma quiet_start : forall c o u p fs sk out, check_path_start (fun (_ : path) t => get_checks c o u t) (fixing_mode c) p fs = JWrite sk out -> fs p = Some out.
Proof. intros c o u p fs sk out. unfold check_path_start. repeat match goal with |- context [if ?b then _ else _] => destruct b end; discriminate. Qed.
Theorem quiet_several : forall c o u sched fs ps fs' js', only_functions u -> no_fixes c -> NoDup ps ->
  sys_run (fun _ t => get_checks c o u t) (fun _ => true) (fixing_mode c) sched fs (map (fun p => (p, None)) ps) = (fs', js') ->
  forall q, fs' q = fs q.
Proof.
  intros c o u sched fs ps fs' js' U Q Nd E.
  assert (Hm : map fst (map (fun p : path => (p, @None jstate)) ps) = ps) by (rewrite map_map; cbn; apply map_id).
  destruct (sys_run_inv (fun _ t => get_checks c o u t) (fun _ => true) (fixing_mode c) fs sched fs (map (fun p => (p, None)) ps) fs' js') as (A & B & C); [rewrite Hm; exact Nd| |exact E|].
  { apply Forall_forall. intros x Hx. apply in_map_iff in Hx. destruct Hx as (p & <- & _). reflexivity. }
  rewrite Hm in *. rewrite Forall_forall in A. intros q.
  destruct (in_dec (list_eq_dec N.eq_dec) q ps) as [I|I]; [|exact (C q I)].
  rewrite <- B in I. apply in_map_iff in I. destruct I as ([p j] & Ep & I). cbn [fst] in Ep. subst p. specialize (A _ I). destruct j as [j|]; [|exact A].
  destruct A as (n & fsn & J & K). rewrite K. exact (quiet_run _ _ _ _ _ _ _ _ _ U Q (quiet_start c o u q fs) J q).
Qed.

(** ** The findings *)
Definition tfs : text := lit "true_false_symbol".
Definition is_TF (w : text) : bool := teqb w (lit "T") || teqb w (lit "F").
Definition long (w : text) : atom := if teqb w (lit "T") then ATrue else AFalse.
Definition skipped (fs : list frame) : bool :=
  match fs with FCallF _ :: _ | FExtract _ _ :: _ => true | (FBinL BTilde _ _ | FBinR BTilde _ _) :: _ => true | _ => false end.
Definition spell_report (fs : list frame) (w : text) : report := mk_report fs (EAtom (AId w)) (Some [TAtom (long w)]).
Definition finds (fs : list frame) (e : expr) : list found :=
  match e with
  | EAtom (AId w) => if is_TF w && negb (skipped fs) then [(tfs, spell_report fs w)] else []
  | EFor v q b => match true_false_symbol_for fs e with Some r => [(tfs, r)] | None => [] end
  | _ => []
  end.
Lemma is_TF_iff : forall w, is_TF w = true <-> T_or_F w.
Proof. intros w. unfold is_TF, T_or_F. rewrite Bool.orb_true_iff, !teqb_eq. tauto. Qed.

Section Spell.
  Variable s : settings.
  Hypothesis On : forall n, on s n = teqb n tfs.
  Lemma skip_other : forall n f l fs e, teqb n tfs = false -> run_rules s ((n, f) :: l) fs e = run_rules s l fs e.
  Proof. intros n f l fs e H. cbn [run_rules]. rewrite On, H. reflexivity. Qed.
  Ltac skips := repeat (rewrite skip_other by (vm_compute; reflexivity)); try reflexivity.
  Lemma run_finds : forall fs e, run_rules s (rules_at s e) fs e = ROk (finds fs e).
  Proof.
    intros fs e. destruct e as [a|x|u x|o nl l r|f args|d x args|x o n|c t el|ps b|v q b|c b|b|es]; [destruct a| | | | |destruct d| | | | | | | ]; cbn [rules_at finds];
      unfold on_value, on_identifier, on_namespace, on_binary, on_call, on_for, on_function, on_if, on_subset, on_unary, on_while; try (skips; fail).
    - match goal with |- context [EAtom (AId ?v)] => rename v into t end. cbn [run_rules]. rewrite On. change (teqb (lit "true_false_symbol") tfs) with true. cbv iota. unfold total, true_false_symbol. fold (is_TF t).
      destruct (is_TF t); [|reflexivity]. cbn [andb]. destruct fs as [|g fs]; [reflexivity|]. destruct g; try reflexivity; destruct o; reflexivity.
    - skips. cbn [run_rules]. rewrite On. change (teqb (lit "true_false_symbol") tfs) with true. cbv iota. unfold total. destruct (true_false_symbol_for fs (EFor v q b)); reflexivity.
  Qed.
  Definition found_in (fs : list frame) (e : expr) : list found :=
    match check_expression s fs e with ROk l => l | _ => [] end.
  Lemma check_found : forall e fs, check_expression s fs e = ROk (found_in fs e) /\
    found_in fs e = finds fs e ++ flat_map (fun k => found_in (fst k :: fs) (snd k)) (kids e).
  Proof.
    intros e. remember (length (toks e)) as k eqn:Hk. revert e Hk. induction k as [k IH] using lt_wf_ind. intros e -> fs.
    assert (E : check_expression s fs e = ROk (finds fs e ++ flat_map (fun k => found_in (fst k :: fs) (snd k)) (kids e))).
    { rewrite check_here, run_finds, (in_turn_ok _ (step s fs) (fun k => found_in (fst k :: fs) (snd k))); [reflexivity|].
      intros [f x] H. exact (proj1 (IH _ (kids_smaller _ _ _ H) x eq_refl (f :: fs))). }
    unfold found_in at 1 2. rewrite E. auto.
  Qed.
  Fixpoint prog_found (i : nat) (p : prog) : list (nat * found) :=
    match p with [] => [] | e :: r => map (pair i) (found_in [] e) ++ prog_found (S i) r end.
  Lemma check_file_found : forall p i, check_statements s i p = ROk (prog_found i p).
  Proof.
    induction p as [|e p IH]; intros i; [reflexivity|]. cbn [check_statements prog_found]. rewrite (proj1 (check_found e [])). cbn [rbind]. rewrite IH. reflexivity.
  Qed.
End Spell.

Definition c_spell : config := Eval vm_compute in
  match build_config (fix_args (lit "true_false_symbol")) None [] with ROk c => c | _ => c0 end.
Lemma run_spell : forall c o, run_with (lit "true_false_symbol") c o -> c = c_spell /\ o = o0.
Proof.
  intros c o [B O]. assert (Q : build_config (fix_args (lit "true_false_symbol")) None [] = ROk c_spell) by (vm_compute; reflexivity).
  assert (R : resolve_options None None None None None None = ROk o0) by (vm_compute; reflexivity).
  rewrite Q in B. rewrite R in O. injection B as <-. injection O as <-. auto.
Qed.
Definition ss (u : rule_fn) : settings := settings_of c_spell o0 u.
Lemma only_spell : forall u n, on (ss u) n = teqb n tfs.
Proof.
  intros u n. unfold ss, settings_of. cbn [on]. change (map Rules.rule_name (c_rules_to_apply c_spell)) with [tfs].
  assert (E : forall l, existsb (fun r => teqb n (Rules.rule_name r)) l = existsb (teqb n) (map Rules.rule_name l)) by (induction l as [|a l IH]; [reflexivity|cbn [existsb map]; rewrite IH; reflexivity]).
  rewrite E. assert (Q : map Rules.rule_name (c_rules_to_apply c_spell) = [tfs]) by (vm_compute; reflexivity). rewrite Q. cbn [existsb]. apply Bool.orb_false_r.
Qed.
Lemma spell_no_fixes : no_fixes c_spell.
Proof. intros r I. assert (Q : map has_no_fix (c_rules_to_apply c_spell) = [true]) by (vm_compute; reflexivity). apply (in_map has_no_fix) in I. rewrite Q in I. destruct I as [I|[]]. congruence. Qed.
Lemma spell_rules : forall s rule, In (tfs, rule) (all_rules s) -> rule = total true_false_symbol \/ rule = total true_false_symbol_for.
Proof.
  intros s rule I. assert (F : Forall (fun q => fst q = tfs -> snd q = total true_false_symbol \/ snd q = total true_false_symbol_for) (all_rules s)).
  { unfold all_rules. repeat (constructor; [cbn [fst snd]; first [intros _; left; reflexivity|intros _; right; reflexivity|intros X; discriminate X]|]). constructor. }
  rewrite Forall_forall in F. exact (F _ I eq_refl).
Qed.
Lemma looked_skips : forall fs, Forall looked_into fs -> (skipped fs = false <-> ~ formula_side fs).
Proof.
  intros [|g fs] L; cbn; [split; auto|]. inversion L as [|? ? Lg _]; subst.
  destruct g; cbn [looked_into] in Lg; try contradiction; try (split; [intros _ []|reflexivity]); destruct o; (split; [intros X Y; try discriminate X; exact Y|intros X; try reflexivity; exfalso; apply X; exact Logic.I]).
Qed.
Lemma no_skip : forall w fs, is_TF w = true -> skipped fs = false -> true_false_symbol fs (EAtom (AId w)) = Some (spell_report fs w).
Proof.
  intros w fs D S. unfold true_false_symbol. fold (is_TF w). rewrite D. destruct fs as [|g fs]; [reflexivity|]. destruct g; try reflexivity; try discriminate S; destruct o; try reflexivity; discriminate S.
Qed.
Lemma skip_none : forall w fs, skipped fs = true -> true_false_symbol fs (EAtom (AId w)) = None.
Proof.
  intros w fs S. unfold true_false_symbol. destruct (_ || _); [|reflexivity]. destruct fs as [|g fs]; [discriminate S|]. destruct g; try reflexivity; try discriminate S; destruct o; try reflexivity; discriminate S.
Qed.
Lemma same_split : forall (A : Type) (a b a' b' : list A), a ++ b = a' ++ b' -> length a = length a' -> a = a' /\ b = b'.
Proof.
  induction a as [|x a IH]; intros b [|y a'] b' E L; try discriminate L; [auto|]. cbn [app] in E. injection E as -> E. cbn [length] in L.
  destruct (IH _ _ _ E) as [ -> -> ]; [lia|]. auto.
Qed.
Lemma written_det : forall t j fs e x y x' y', written t j fs e x y -> written t j fs e x' y' -> x = x' /\ y = y'.
Proof.
  intros t j fs e x y x' y' (p & b & f & m & la & a & T & R & _ & Eb & Em & Ex & (l & El) & Ey) (p' & b' & f' & m' & la' & a' & T' & R' & _ & Eb' & Em' & Ex' & (l' & El') & Ey').
  rewrite T in T'. assert (T0 : b ++ (f :: m) ++ a = b' ++ (f' :: m') ++ a') by congruence. clear T'. rename T0 into T'. rewrite <- T' in R'. assert (p' = p) by (eapply reads_det; [exact R'|exact R]). subst p'.
  destruct (same_split _ _ _ _ _ T') as [_ T2]; [pose proof (f_equal (@length tok) (eq_trans Eb (eq_sym Eb'))) as Lb; rewrite !map_length in Lb; exact Lb|].
  destruct (same_split _ _ _ _ _ T2) as [T3 _]; [pose proof (f_equal (@length tok) (eq_trans Em (eq_sym Em'))) as Lb; rewrite !map_length in Lb; exact Lb|].
  rewrite El, El' in T3. apply app_inj_tail in T3. destruct T3 as [_ T4]. assert (T5 : f :: m = f' :: m') by (rewrite El, El'; destruct (same_split _ _ _ _ _ T2) as [T3 _]; [pose proof (f_equal (@length tok) (eq_trans Em (eq_sym Em'))) as Lb; rewrite !map_length in Lb; exact Lb|]; rewrite <- El, <- El'; exact T3).
  injection T5 as T5 _. split; congruence.
Qed.
Theorem spell_uses : forall c o u t, run_with (lit "true_false_symbol") c o -> only_functions u -> readable t ->
  exists ds, get_checks c o u t = Some ds /\ Forall (fun d => d_rule d = lit "true_false_symbol" /\ is_empty_fix (d_fix d) = true) ds /\
    (forall j fs w x y, written t j fs (EAtom (AId w)) x y -> Forall looked_into fs -> T_or_F w -> ~ formula_side fs ->
       exists d, In d ds /\ d_start d = x /\ d_end d = y) /\
    (forall j fs v s b x y, written t j fs (EFor v s b) x y -> Forall looked_into fs -> T_or_F v ->
       exists d, In d ds /\ x <= d_start d /\ d_end d <= y) /\
    (forall d, In d ds ->
       (exists j fs w, written t j fs (EAtom (AId w)) (d_start d) (d_end d) /\ Forall looked_into fs /\ T_or_F w /\ ~ formula_side fs) \/
       (exists j fs v s b x y, written t j fs (EFor v s b) x y /\ Forall looked_into fs /\ T_or_F v /\ x <= d_start d /\ d_end d <= y)).
Proof.
  intros c o u t R U [p (pts & T & Rd)]. destruct (run_spell _ _ R) as [-> ->].
  assert (Pt : exists ps, pieces t = Some ps) by (unfold tokens in T; destruct (pieces t); [eauto|discriminate]). destruct Pt as [ps P].
  assert (C : check_file (ss u) p = ROk (prog_found (ss u) 0 p)) by (exact (check_file_found (ss u) (only_spell u) p 0)).
  assert (G : get_checks c_spell o0 u t = Some (map (filter_fix c_spell) (map (diag_of (map snd pts) (comments true 0 (place_pieces 0 ps)) p) (prog_found (ss u) 0 p)))).
  { unfold get_checks. rewrite P, T. rewrite (proj2 (parse_reads _ _) Rd). fold (ss u). rewrite C. reflexivity. }
  eexists. split; [exact G|].
  assert (Rt : reads_text t p) by (exists pts; auto).
  assert (NU : tfs <> lit "unreachable_code") by discriminate.
  split; [|split; [|split]].
  - pose proof (quiet_diags _ _ _ _ _ U spell_no_fixes G) as Q. apply Forall_forall. intros d I. rewrite Forall_forall in Q. split; [|exact (Q _ I)].
    destruct (reported_rule _ _ _ _ _ _ U G I) as (r & Ir & ->). apply (in_map rule_name) in Ir.
    assert (E : map rule_name (c_rules_to_apply c_spell) = [lit "true_false_symbol"]) by (vm_compute; reflexivity). rewrite E in Ir. destruct Ir as [Ir|[]]. congruence.
  - intros j fs w x y W L D NF. apply is_TF_iff in D. apply (looked_skips _ L) in NF. destruct (written_tokens _ _ _ _ _ _ _ Rt W) as (b & m & a & _ & _ & N & _).
    destruct (found_reported c_spell o0 u t _ p j fs (EAtom (AId w)) tfs (spell_report fs w) U G Rt N) as (d & x' & y' & I & _ & W' & E1 & E2); [left; exact L| |exact NU|].
    { split; [fold (ss u); rewrite only_spell; reflexivity|]. exists (total true_false_symbol), [spell_report fs w]. split; [unfold all_rules; cbn [In]; tauto|]. split; [|left; reflexivity].
      unfold total. rewrite (no_skip _ _ D NF). reflexivity. }
    exists d. split; [exact I|]. cbn [spell_report at_frames at_node] in W'. destruct (written_det _ _ _ _ _ _ _ _ W W'). split; congruence.
  - intros j fs v s b x y W L D. apply is_TF_iff in D. destruct (written_tokens _ _ _ _ _ _ _ Rt W) as (b0 & m & a & _ & _ & N & _).
    assert (Hr : exists r, true_false_symbol_for fs (EFor v s b) = Some r /\ at_frames r = fs /\ at_node r = EFor v s b).
    { unfold true_false_symbol_for. fold (is_TF v). rewrite D. eexists. split; [reflexivity|]. split; reflexivity. }
    destruct Hr as (r & Er & Fr & Nr).
    destruct (found_reported c_spell o0 u t _ p j fs (EFor v s b) tfs r U G Rt N) as (d & x' & y' & I & _ & W' & E1 & E2); [left; exact L| |exact NU|].
    { split; [fold (ss u); rewrite only_spell; reflexivity|]. exists (total true_false_symbol_for), [r]. split; [unfold all_rules; cbn [In]; tauto|]. split; [|left; reflexivity].
      unfold total. rewrite Er. reflexivity. }
    exists d. split; [exact I|]. rewrite Fr, Nr in W'. destruct (written_det _ _ _ _ _ _ _ _ W W'). lia.
  - intros d I. destruct (diag_from _ _ _ _ _ _ G I) as (ps' & pts' & p' & found & j & n & r & P' & T' & R' & C' & J & Ed).
    pose proof (check_file_exact (settings_of c_spell o0 u) _ _ U C') as Ex. destruct (proj1 (Ex _ _ _) J) as (e & fs & x & N & Pl & Re & On & rule & rs & Ir & Hr & Hin).
    assert (En : n = tfs) by (fold (ss u) in On; rewrite only_spell in On; apply teqb_eq; exact On). subst n.
    destruct (report_written (settings_of c_spell o0 u) _ _ _ _ _ _ _ U T' R' C' J NU) as (x1 & y1 & Sp & W).
    destruct (filter_fix_shape c_spell (diag_of (map snd pts') (comments true 0 (place_pieces 0 ps')) p' (j, (tfs, r)))) as (_ & E2 & E3 & _). rewrite <- Ed in E2, E3.
    cbn [diag_of d_start d_end] in E2, E3. rewrite Sp in E2, E3. cbn [fst snd] in E2, E3.
    destruct (spell_rules _ _ Ir) as [ -> | -> ]; unfold total in Hr; injection Hr as <-.
    + left. destruct x as [a|x0|u0 x0|o0 nl l0 r0|f0 args|d0 x0 args|x0 o0 n0|c0 t0 el|ps0 b|v q b|c0 b|b|es]; try contradiction Hin. destruct a as [w| | | | | | | | ]; try contradiction Hin.
      destruct (is_TF w) eqn:D; [|unfold true_false_symbol in Hin; fold (is_TF w) in Hin; rewrite D in Hin; contradiction Hin].
      destruct (skipped fs) eqn:S; [rewrite (skip_none _ _ S) in Hin; contradiction Hin|]. rewrite (no_skip _ _ D S) in Hin. destruct Hin as [<-|[]]. cbn [spell_report at_frames at_node] in W.
      assert (L : Forall looked_into fs) by (destruct Re as [L|(? & ? & ? & ? & ? & _ & X & _)]; [exact L|discriminate X]).
      exists j, fs, w. rewrite E2, E3. split; [exact W|]. split; [exact L|]. split; [apply is_TF_iff; exact D|apply (looked_skips _ L); exact S].
    + right. destruct x as [a|x0|u0 x0|o0 nl l0 r0|f0 args|d0 x0 args|x0 o0 n0|c0 t0 el|ps0 b|v q b|c0 b|b|es]; try contradiction Hin.
      unfold true_false_symbol_for in Hin. fold (is_TF v) in Hin. destruct (is_TF v) eqn:D; [|contradiction Hin]. destruct Hin as [<-|[]]. cbn [at_frames at_node] in W.
      assert (L : Forall looked_into fs) by (destruct Re as [L|(? & ? & ? & ? & ? & _ & X & _)]; [exact L|discriminate X]).
      exists j, fs, v, q, b, x1, y1. rewrite E2, E3. split; [exact W|]. split; [exact L|]. split; [apply is_TF_iff; exact D|]. split; apply le_n.
Qed.
Theorem spell_checked : forall c o u p fs t, run_with (lit "true_false_symbol") c o -> only_functions u -> ~ document_path p -> fs p = Some t -> readable t ->
  exists n fs' ds, jarl_check c o u n p fs = (fs', Some (Ok ds)) /\ get_checks c o u t = Some ds /\ forall q, fs' q = fs q.
Proof.
  intros c o u p fs t R U Nd Hp Rd. destruct (spell_uses c o u t R U Rd) as (ds & G & Q & _). destruct (run_spell _ _ R) as [-> ->].
  unfold jarl_check. assert (Fx : fixing_mode c_spell = true) by reflexivity. 
  destruct (check_path (fun (_ : path) t => get_checks c_spell o0 u t) (fun _ => true) 3 true p fs) as [fs' r] eqn:J.
  assert (E : real_fixes (map d_fix ds) = []) by (apply no_real_fixes; eapply Forall_impl; [|exact Q]; intros d [_ H]; exact H).
  destruct (check_path_nofix _ _ _ _ _ _ _ _ _ Hp G E J) as [S D]. exists 3, fs', ds. rewrite Fx, J. split; [|split; [exact G|intros q; first [exact (S q)|symmetry; exact (S q)]]].
  rewrite D; [reflexivity|lia|reflexivity].
Qed.
