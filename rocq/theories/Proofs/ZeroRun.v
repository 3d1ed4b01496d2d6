(** The whole run of [jarl check --fix --select numeric_leading_zero] on the text of a file. *)
From Coq Require Import Sorting.Sorted.
From Verif Require Import Spec.RDecimals Spec.RSearch Spec.FixSpec Spec.DriverSpec Proofs.TextProofs Proofs.LspProofs Proofs.FixProofs Proofs.DriverProofs Proofs.RParse Proofs.RParseSound Proofs.RFuel
  Proofs.RContext Proofs.RSearchProofs Proofs.ConfigProofs Proofs.CommentProofs Proofs.LocalText Proofs.ReplaceText Proofs.Cuts Proofs.WholeProofs Proofs.ExtensionProofs Proofs.FileRefute Proofs.PassProofs Proofs.ZeroSearch Proofs.ZeroFix Spec.RLex.

(** ** Lists *)
Lemma pairs_map : forall (A B : Type) (R : A -> A -> Prop) (S : B -> B -> Prop) (f : A -> B) l, ForallOrdPairs R l ->
  (forall a b, In a l -> In b l -> R a b -> S (f a) (f b)) -> ForallOrdPairs S (map f l).
Proof.
  induction 1 as [|a l F O IH]; intros H; [constructor|]. cbn [map]. constructor.
  - apply Forall_map. rewrite Forall_forall in F |- *. intros b I. apply H; [left; reflexivity|right; exact I|exact (F _ I)].
  - apply IH. intros b c Hb Hc. apply H; right; assumption.
Qed.
Lemma sorted_nth : forall (l : list span) i j d, StronglySorted follows l -> i < j -> j < length l -> follows (nth i l d) (nth j l d).
Proof.
  induction l as [|s l IH]; intros i j d S L Lj; [cbn in Lj; lia|]. inversion S; subst. destruct j as [|j]; [lia|]. cbn [length] in Lj. destruct i as [|i]; cbn [nth].
  - rewrite Forall_forall in H2. apply H2. apply nth_In. lia.
  - apply IH; [assumption|lia|lia].
Qed.
Lemma sorted_two : forall (l : list span) a b, StronglySorted follows l -> In a l -> In b l -> a = b \/ follows a b \/ follows b a.
Proof.
  induction l as [|s l IH]; intros a b S Ia Ib; [contradiction|]. inversion S; subst. rewrite Forall_forall in H2.
  destruct Ia as [->|Ia]; destruct Ib as [->|Ib]; auto.
Qed.

(** ** No comment inside a number *)
Lemma no_comment_in_token : forall t ps pts w x y, pieces t = Some ps -> tokens t = Some pts -> In (TAtom (ANum w), (x, y)) pts ->
  node_contains_comments (map snd pts) (comments true 0 (place_pieces 0 ps)) (x, y) = false.
Proof.
  intros t ps pts w x y P T I. destruct (token_num _ _ _ _ _ P T I) as [J _]. destruct (tokens_cover _ _ _ P T) as [Cov Ch]. destruct (cover_sorted _ _ Cov _ Ch) as [Pos Sorted].
  unfold node_contains_comments. cbn [fst snd]. rewrite <- Bool.andb_assoc. 
  match goal with |- existsb ?f ?l && _ = false => destruct (existsb f l) eqn:In1; [|reflexivity] end. cbn [andb].
  apply existsb_exists in In1. destruct In1 as (c & Ic & Hc). apply andb_prop in Hc. destruct Hc as [H1 H2]. apply Nat.ltb_lt in H1. apply Nat.leb_le in H2.
  apply Bool.andb_false_iff. destruct c as [e|a]; cbn [owner_end] in H1, H2.
  - left. apply Bool.negb_false_iff, existsb_exists. exists (inl e). split; [exact Ic|]. apply Nat.eqb_eq.
    destruct (comments_inl _ _ _ _ Ic) as [(E & _)|(pre & k & v & r & mid & v' & s & post & E & _)]; [discriminate|].
    assert (K : In (k, v, (r, e)) (place_pieces 0 ps)) by (rewrite E; apply in_or_app; right; left; reflexivity).
    pose proof (chain_in _ _ _ _ _ _ Ch K). destruct (chain_disjoint _ _ _ _ _ _ _ _ _ _ Ch J K) as [D|[D|D]]; [lia|lia|]. congruence.
  - right. apply Bool.negb_false_iff, existsb_exists. exists (inr a). split; [exact Ic|].
    destruct (find (fun s : span => a <=? fst s) (map snd pts)) as [s|] eqn:F; [|lia]. pose proof (find_some _ _ F) as [Is _].
    assert (Ix : In (x, y) (map snd pts)) by (apply in_map_iff; exists (TAtom (ANum w), (x, y)); auto).
    rewrite Forall_forall in Pos. pose proof (Pos _ Is) as [_ Ps]. apply Nat.eqb_eq.
    destruct (sorted_two _ _ _ Sorted Is Ix) as [->|[D|D]]; [reflexivity|unfold follows in D; cbn [fst snd] in D; lia|unfold follows in D; cbn [fst snd] in D; lia].
Qed.

(** ** The findings *)
Definition c_zero : config := Eval vm_compute in
  match build_config (fix_args (lit "numeric_leading_zero")) None [] with ROk c => c | _ => c0 end.
Lemma run_zero : forall c o, run_with (lit "numeric_leading_zero") c o -> c = c_zero /\ o = o0.
Proof.
  intros c o [B O]. assert (Q : build_config (fix_args (lit "numeric_leading_zero")) None [] = ROk c_zero) by (vm_compute; reflexivity).
  assert (R : resolve_options None None None None None None = ROk o0) by (vm_compute; reflexivity).
  rewrite Q in B. rewrite R in O. injection B as <-. injection O as <-. auto.
Qed.
Definition zs (u : rule_fn) : settings := settings_of c_zero o0 u.
Lemma only_zero : forall u n, on (zs u) n = teqb n nlz.
Proof.
  intros u n. unfold zs, settings_of. cbn [on]. change (map Rules.rule_name (c_rules_to_apply c_zero)) with [nlz].
  assert (E : forall l, existsb (fun r => teqb n (Rules.rule_name r)) l = existsb (teqb n) (map Rules.rule_name l)) by (induction l as [|a l IH]; [reflexivity|cbn [existsb map]; rewrite IH; reflexivity]).
  rewrite E. assert (Q : map Rules.rule_name (c_rules_to_apply c_zero) = [nlz]) by (vm_compute; reflexivity). rewrite Q. cbn [existsb]. apply Bool.orb_false_r.
Qed.
Definition nothing : rule_fn := fun _ _ => ROk [].
Lemma reports_any : forall s s', (forall n, on s n = teqb n nlz) -> (forall n, on s' n = teqb n nlz) -> forall e fs, reports s fs e = reports s' fs e.
Proof.
  intros s s' H H' e. remember (length (toks e)) as k eqn:Hk. revert e Hk. induction k as [k IH] using lt_wf_ind. intros e -> fs.
  rewrite (proj2 (check_reports s H e fs)), (proj2 (check_reports s' H' e fs)). f_equal. rewrite !flat_map_concat_map. f_equal. apply map_ext_in. intros [f x] I.
  exact (IH _ (kids_smaller _ _ _ I) x eq_refl (f :: fs)).
Qed.
Lemma prog_reports_any : forall u p i, prog_reports (zs u) i p = prog_reports (zs nothing) i p.
Proof.
  intros u. induction p as [|e p IH]; intros i; [reflexivity|]. cbn [prog_reports]. rewrite IH, (reports_any (zs u) (zs nothing) (only_zero u) (only_zero nothing)). reflexivity.
Qed.
Notation Z := (zs nothing).
Definition zfix (spans : list span) (p : prog) (z : nat * found) : rfix :=
  match at_node (snd (snd z)) with
  | EAtom (ANum w) => mk_fix (lit "0" ++ w) (fst (nth (first_of p z) spans no_span)) (snd (nth (first_of p z) spans no_span)) false
  | _ => empty_fix
  end.
Definition written_number (t : text) (ed : edit) : Prop :=
  exists j fs w x y, ed = zero_edit j fs w x y /\ dotted w = true /\ Forall looked_into fs /\ written t j fs (EAtom (ANum w)) x y.
Lemma only_nothing : only_functions (unreachable Z).
Proof. intros gs x; destruct x; try reflexivity; exact Logic.I. Qed.
Lemma number_span : forall t pts p j fs w x y, tokens t = Some pts -> reads (map fst pts) p -> written t j fs (EAtom (ANum w)) x y ->
  nth (first_of p (j, (nlz, zero_report fs w))) (map snd pts) no_span = (x, y).
Proof.
  intros t pts p j fs w x y T R (p' & b & first & more & last & a & T' & R' & N' & Eb & Em & Ex & [l El] & Ey).
  rewrite T in T'. assert (Epts : pts = b ++ (first :: more) ++ a) by congruence.
  assert (p' = p) by (apply (reads_det (map fst pts)); [rewrite Epts; exact R'|exact R]). subst p'.
  destruct first as [k s]. cbn [toks map fst] in Em. destruct more as [|q more]; [|discriminate Em].
  destruct l as [|q l]; [|destruct l; discriminate El]. cbn [app] in El. injection El as <-. cbn [snd] in Ex, Ey.
  assert (Lb : length (map snd b) = first_of p (j, (nlz, zero_report fs w))) by (rewrite map_length; apply (f_equal (@length tok)) in Eb; rewrite map_length, app_length in Eb; exact Eb).
  rewrite Epts, map_app, <- Lb, app_nth2 by apply le_n. rewrite Nat.sub_diag. cbn [app map nth snd]. destruct s. cbn [fst snd] in *. subst. reflexivity.
Qed.
Lemma zero_diags : forall u t p, reads_text t p -> exists ds pts, tokens t = Some pts /\ get_checks c_zero o0 u t = Some ds /\
  map d_fix ds = map (zfix (map snd pts) p) (prog_reports Z 0 p) /\
  (forall z, In z (prog_reports Z 0 p) -> first_of p z < length (map snd pts) /\ exists ed, e_fix ed = zfix (map snd pts) p z /\ written_number t ed) /\
  (forall j fs w x y, written t j fs (EAtom (ANum w)) x y -> Forall looked_into fs -> dotted w = true ->
     exists d, In d ds /\ d_start d = x /\ d_end d = y /\ d_fix d = mk_fix (lit "0" ++ w) x y false).
Proof.
  intros u t p (pts & T & R). assert (Pt : exists ps, pieces t = Some ps) by (unfold tokens in T; destruct (pieces t); [eauto|discriminate]). destruct Pt as [ps P].
  assert (C : check_file (zs u) p = ROk (prog_reports Z 0 p)) by (unfold check_file; rewrite (check_file_reports (zs u) (only_zero u)), prog_reports_any; reflexivity).
  assert (C0 : check_file Z p = ROk (prog_reports Z 0 p)) by (exact (check_file_reports Z (only_zero nothing) p 0)).
  assert (G : get_checks c_zero o0 u t = Some (map (filter_fix c_zero) (map (diag_of (map snd pts) (comments true 0 (place_pieces 0 ps)) p) (prog_reports Z 0 p)))).
  { unfold get_checks. rewrite P, T. rewrite (proj2 (parse_reads _ _) R). fold (zs u). rewrite C. reflexivity. }
  eexists. exists pts. split; [exact T|]. split; [exact G|].
  assert (Each : forall z, In z (prog_reports Z 0 p) -> first_of p z < length (map snd pts) /\
    (exists ed, e_fix ed = zfix (map snd pts) p z /\ written_number t ed) /\
    d_fix (filter_fix c_zero (diag_of (map snd pts) (comments true 0 (place_pieces 0 ps)) p z)) = zfix (map snd pts) p z).
  { intros z I. pose proof (prog_reports_shape Z (only_zero nothing) p 0) as Sh. rewrite Forall_forall in Sh. destruct (Sh _ I) as (fs & w & e & Ez & _ & L & D & N & Pl).
    destruct z as [j f]. cbn [fst] in Ez. injection Ez as ->.
    assert (NU : nlz <> lit "unreachable_code") by discriminate.
    assert (OF : only_functions (unreachable Z)) by (intros gs x; destruct x; try reflexivity; exact Logic.I).
    destruct (report_written Z t pts p _ j nlz (zero_report fs w) OF T R C0 I NU) as (x & y & Sp & W). cbn [zero_report at_frames at_node] in W.
    assert (Ef : first_token p j (zero_report fs w) = first_of p (j, (nlz, zero_report fs w))) by reflexivity.
    unfold report_span, node_span in Sp. rewrite Ef in Sp. cbn [zero_report at_node toks length] in Sp.
    set (i := first_of p (j, (nlz, zero_report fs w))) in *. replace (i + 1 - 1) with i in Sp by lia. rewrite <- surjective_pairing in Sp.
    destruct W as (p' & b & first & more & last & a & T' & R' & N' & Eb & Em & Ex & El & Ey).
    assert (W : written t j fs (EAtom (ANum w)) x y) by (exists p', b, first, more, last, a; repeat split; assumption).
    rewrite T in T'. assert (Epts : pts = b ++ (first :: more) ++ a) by congruence.
    assert (p' = p) by (apply (reads_det (map fst pts)); [rewrite Epts; exact R'|exact R]). subst p'.
    assert (Li : i < length (map snd pts)).
    { rewrite Epts, map_length, !app_length. cbn [length]. assert (Lb : length b = i); [|unfold ptok in *; lia]. apply (f_equal (@length tok)) in Eb. rewrite map_length, app_length in Eb. exact Eb. }
    split; [exact Li|].
    assert (Ev : e_fix (zero_edit j fs w x y) = zfix (map snd pts) p (j, (nlz, zero_report fs w))).
    { unfold zfix. cbn [snd zero_report at_node e_fix zero_edit]. fold (zero_report fs w). fold i. rewrite Sp. reflexivity. }
    split.
    { exists (zero_edit j fs w x y). split; [exact Ev|]. exists j, fs, w, x, y. auto. }
    etransitivity; [|exact Ev]. cbn [e_fix zero_edit].
    assert (Inum : In (TAtom (ANum w), (x, y)) pts).
    { rewrite Epts. destruct first as [k s]. destruct El as [l El]. cbn [toks map fst] in Em. destruct more as [|q more]; [|discriminate Em].
      assert (k = TAtom (ANum w)) by (injection Em; auto). subst k. destruct l as [|q l]; [|destruct l; discriminate El]. cbn [app] in El. injection El as <-. cbn [snd] in Ex, Ey.
      apply in_or_app. right. left. destruct s. cbn [fst snd] in *. subst. reflexivity. }
    pose proof (no_comment_in_token _ _ _ _ _ _ P T Inum) as NC.
    cbn [diag_of]. unfold report_span, node_span. rewrite Ef. fold i. cbn [zero_report at_node toks length]. replace (i + 1 - 1) with i by lia. rewrite <- surjective_pairing, Sp.
    unfold fix_of. cbn [zero_report new_text]. rewrite NC, Bool.andb_false_r. cbn [fst snd].
    assert (Sw : show [TAtom (ANum (lit "0" ++ w))] = lit "0" ++ w) by (cbn [show tok_text show_from atom_text]; apply app_nil_r). rewrite Sw.
    unfold filter_fix. cbv zeta. cbn [d_rule].
    match goal with |- context [mem nlz ?l] => assert (M1 : mem nlz l = false) by (vm_compute; reflexivity) end. rewrite M1. cbn [d_rule].
    match goal with |- context [mem nlz ?l] => assert (M2 : mem nlz l = false) by (vm_compute; reflexivity) end. rewrite M2. cbn [d_rule].
    assert (M3 : c_fixable c_zero = None) by (vm_compute; reflexivity). rewrite M3. cbn [d_fix f_skip]. reflexivity. }
  split; [rewrite !map_map; apply map_ext_in; intros z I; apply (Each z I)|]. split; [intros z I; destruct (Each z I) as (E1 & E2 & _); auto|].
  intros j fs w x y W L D.
  assert (I : In (j, (nlz, zero_report fs w)) (prog_reports Z 0 p)).
  { apply (check_file_exact Z p _ only_nothing C0). destruct (written_tokens _ _ _ _ _ _ _ (ex_intro _ pts (conj T R)) W) as (b & m & a & _ & _ & N & _).
    exists (plug fs (EAtom (ANum w))), fs, (EAtom (ANum w)). split; [exact N|]. split; [reflexivity|]. split; [left; exact L|].
    split; [rewrite only_zero; reflexivity|]. exists (total numeric_leading_zero), [zero_report fs w]. repeat split; [unfold all_rules; cbn [In]; tauto|unfold total, listed, MoreLints.numeric_leading_zero; fold (dotted w); rewrite D; reflexivity|left; reflexivity]. }
  eexists. split; [apply in_map, in_map; exact I|]. destruct (Each _ I) as (_ & _ & Fx). rewrite Fx.
  destruct (filter_fix_shape c_zero (diag_of (map snd pts) (comments true 0 (place_pieces 0 ps)) p (j, (nlz, zero_report fs w)))) as (_ & E2 & E3 & _). rewrite E2, E3.
  pose proof (number_span _ _ _ _ _ _ _ _ T R W) as Sp. cbn [diag_of d_start d_end]. unfold report_span, node_span. cbn [zero_report at_node toks length].
  change (first_token p j (zero_report fs w)) with (first_of p (j, (nlz, zero_report fs w))). 
  set (i := first_of p (j, (nlz, zero_report fs w))) in *. replace (i + 1 - 1) with i by lia. unfold zfix. cbn [snd zero_report at_node]. fold (zero_report fs w). fold i. rewrite Sp. auto.
Qed.

(** ** A pass *)
Lemma zfix_real : forall t ed, written_number t ed -> is_empty_fix (e_fix ed) = false.
Proof. intros t ed (j & fs & w & x & y & -> & _). reflexivity. Qed.
Lemma real_all : forall fs, Forall (fun f => is_empty_fix f = false) fs -> real_fixes fs = fs.
Proof. induction 1 as [|f fs H F IH]; [reflexivity|]. unfold real_fixes in *. cbn [filter]. rewrite H. cbn [negb]. rewrite IH. reflexivity. Qed.
Lemma numbers_of : forall t fs, Forall (fun f => exists ed, e_fix ed = f /\ written_number t ed) fs -> exists eds, map e_fix eds = fs /\ Forall (written_number t) eds.
Proof. induction 1 as [|f fs (ed & <- & O) _ (eds & <- & Os)]; [exists []; auto|]. exists (ed :: eds). auto. Qed.
Lemma number_edit_ok : forall t ed, written_number t ed -> edit_ok decimals t ed.
Proof. intros t ed (j & fs & w & x & y & -> & D & _ & W). exact (zero_edit_ok _ _ _ _ _ _ D W). Qed.
Lemma number_neutral : forall t ed, written_number t ed -> byte_neutral t (e_fix ed).
Proof. intros t ed (j & fs & w & x & y & -> & D & _ & W). exact (zero_neutral _ _ _ _ _ _ D W). Qed.
Lemma bare_looked : forall f g, bare_frame f = bare_frame g -> looked_into f -> looked_into g.
Proof. intros f g H L. destruct f; destruct g; cbn in *; try discriminate; auto. Qed.
Lemma alike_looked : forall fs gs, alike gs fs -> Forall looked_into fs -> Forall looked_into gs.
Proof.
  induction fs as [|f fs IH]; intros [|g gs] A F; try discriminate A; [constructor|]. unfold alike in A. cbn [map] in A. injection A as A1 A2. inversion F; subst.
  constructor; [exact (bare_looked _ _ (eq_sym A1) H1)|exact (IH _ A2 H2)].
Qed.
Lemma sub_len : forall {A} (a b : list A), Sublist a b -> length a <= length b.
Proof. induction 1; cbn [length]; lia. Qed.
Lemma zero_good : forall u t p, reads_text t p -> exists ds, get_checks c_zero o0 u t = Some ds /\ length (map d_fix ds) = in_program Z p /\
  Forall (fun f => exists ed, e_fix ed = f /\ written_number t ed) (map d_fix ds) /\ real_fixes (map d_fix ds) = map d_fix ds /\
  Forall (in_text t) (map d_fix ds) /\ Forall (byte_neutral t) (map d_fix ds) /\ ordered_disjoint (map d_fix ds) /\
  (forall j fs w x y, written t j fs (EAtom (ANum w)) x y -> Forall looked_into fs -> dotted w = true ->
     exists d, In d ds /\ d_start d = x /\ d_end d = y /\ d_fix d = mk_fix (lit "0" ++ w) x y false).
Proof.
  intros u t p Rd. destruct (zero_diags u t p Rd) as (ds & pts & T & G & Ed & Each & Found).
  assert (Nums : Forall (fun f => exists ed, e_fix ed = f /\ written_number t ed) (map d_fix ds)).
  { rewrite Ed. apply Forall_map. apply Forall_forall. intros z I. exact (proj2 (Each z I)). }
  assert (Real : real_fixes (map d_fix ds) = map d_fix ds).
  { apply real_all. eapply Forall_impl; [|exact Nums]. intros f (ed & <- & W). exact (zfix_real _ _ W). }
  assert (It : Forall (in_text t) (map d_fix ds)).
  { eapply Forall_impl; [|exact Nums]. intros f (ed & <- & W). exact (edit_in_text decimals _ _ (number_edit_ok _ _ W)). }
  assert (Bn : Forall (byte_neutral t) (map d_fix ds)).
  { eapply Forall_impl; [|exact Nums]. intros f (ed & <- & W). exact (number_neutral _ _ W). }
  assert (Od : ordered_disjoint (map d_fix ds)).
  { rewrite Ed. unfold ordered_disjoint. destruct (prog_reports_ordered Z (only_zero nothing) p []) as [O _]. cbn [app length] in O.
    eapply pairs_map; [exact O|]. intros a b Ia Ib L. cbn beta in L.
    assert (Pt : exists ps, pieces t = Some ps) by (unfold tokens in T; destruct (pieces t); [eauto|discriminate]). destruct Pt as [ps Pt].
    destruct (tokens_cover _ _ _ Pt T) as [Cov Ch]. destruct (cover_sorted _ _ Cov _ Ch) as [_ Sorted].
    pose proof (sorted_nth _ _ _ no_span Sorted L (proj1 (Each b Ib))) as Fo. unfold follows in Fo.
    pose proof (prog_reports_shape Z (only_zero nothing) p 0) as Sh. rewrite Forall_forall in Sh.
    destruct (Sh _ Ia) as (fs & w & e & Ea & _). destruct (Sh _ Ib) as (fs' & w' & e' & Eb & _). 
    unfold before, zfix. rewrite Ea, Eb in *. cbn [snd zero_report at_node f_start f_end] in *. exact Fo. }
  exists ds. split; [exact G|]. split; [rewrite Ed, map_length; apply prog_reports_many|]. auto 10.
Qed.
Lemma zero_pass : forall u t p, reads_text t p -> exists ds sk t' q, get_checks c_zero o0 u t = Some ds /\ apply_fixes (map d_fix ds) t = Some (sk, t') /\
  reads_text t' q /\ same_behaviour decimals p q /\ (sk = false -> in_program Z q = 0) /\ (sk = true -> in_program Z q < in_program Z p) /\
  (exists eds, Forall (written_number t) eds /\ Splice 0 (map e_fix eds) t t').
Proof.
  intros u t p Rd. destruct (zero_good u t p Rd) as (ds & G & Len & Nums & Real & It & Bn & Od & _).
  destruct (apply_fixes_no_panic _ _ Od It Bn) as (sk & t' & A).
  rewrite <- Real in Od, It, Bn. destruct (apply_fixes_real _ _ _ _ Od It Bn A) as (applied & Su & Sp & All & Hd). rewrite Real in Su, All, Hd.
  destruct (numbers_of t applied (sublist_forall _ _ _ Su Nums)) as (eds & <- & Fz).
  assert (Ok : Forall (edit_ok decimals t) eds) by (eapply Forall_impl; [|exact Fz]; intros ed; apply number_edit_ok).
  destruct (pass_inv _ _ _ _ Sp decimals [] t eds p eq_refl eq_refl eq_refl Rd Ok) as (q & Rq & Sb & _ & _ & Me).
  assert (Count : in_program Z p = length eds + in_program Z q).
  { apply Me. intros ed pl I Al. rewrite Forall_forall in Fz. destruct (Fz _ I) as (j & fs & w & x & y & -> & D & L & _). cbn [zero_edit e_old e_new e_frames] in *.
    apply (in_program_zeroed Z (only_zero nothing)); [exact (alike_looked _ _ Al L)|exact D]. }
  exists ds, sk, t', q. split; [exact G|]. split; [exact A|]. split; [exact Rq|]. split; [exact Sb|]. split; [|split].
  - intros E. specialize (All E). apply (f_equal (@length _)) in All. rewrite map_length in All. lia.
  - intros E. destruct eds as [|ed eds]; [|cbn [length] in Count; lia]. exfalso. cbn [map hd_error] in Hd. destruct (map d_fix ds) as [|f l] eqn:M; [|discriminate].
    rewrite (apply_fixes_empty [] t eq_refl) in A. congruence.
  - exists eds. auto.
Qed.
Lemma no_more : forall u t p, reads_text t p -> in_program Z p = 0 -> get_checks c_zero o0 u t = Some [].
Proof.
  intros u t p Rd E. destruct (zero_diags u t p Rd) as (ds & pts & _ & G & Ed & _). rewrite <- (prog_reports_many Z p 0) in E.
  apply length_zero_iff_nil in E. rewrite E in Ed. destruct ds; [exact G|discriminate Ed].
Qed.

(** ** The text *)
Lemma added_refl : forall a, zeros_added a a.
Proof. induction a; constructor; assumption. Qed.
Lemma added_trans : forall b c, zeros_added b c -> forall a, zeros_added a b -> zeros_added a c.
Proof.
  induction 1 as [|x b c H IH|b c H IH]; intros a A.
  - exact A.
  - inversion A; subst.
    + constructor. apply IH. assumption.
    + apply added_zero. apply IH. assumption.
  - inversion A; subst.
    + apply added_zero. apply IH. exact A.
Qed.
Lemma added_app : forall a b, zeros_added a b -> forall c d, zeros_added c d -> zeros_added (a ++ c) (b ++ d).
Proof. induction 1 as [|x a b H IH|a b H IH]; intros c d Hc; [exact Hc|constructor; apply IH; exact Hc|apply (added_zero (a ++ c)); apply (IH c d Hc)]. Qed.
Lemma splice_added : forall pos fs rest out, Splice pos fs rest out -> forall pre t eds, fs = map e_fix eds -> t = pre ++ rest -> blen pre = pos ->
  Forall (written_number t) eds -> zeros_added rest out.
Proof.
  induction 1 as [pos rest|pos f fs keep old rest out E1 E2 Sp IH]; intros pre t eds Ef Et Ep F; [apply added_refl|].
  destruct eds as [|ed eds]; [discriminate|]. cbn [map] in Ef. injection Ef as -> ->. inversion F; subst x l.
  destruct H1 as (j & fs & w & x & y & -> & D & _ & W). cbn [zero_edit e_fix f_start f_end f_content] in *.
  destruct (number_written _ _ _ _ _ _ W) as (A & C & Ht & LA & LB & _ & _).
  assert (old = w) as ->.
  { assert (H1 : A ++ (w ++ C) = (pre ++ keep) ++ (old ++ rest)) by (rewrite <- Ht, Et, <- app_assoc; reflexivity).
    rewrite blen_app in LB. destruct (blen_prefix _ _ _ _ H1) as [HA H9]; [rewrite blen_app; lia|]. destruct (blen_prefix _ _ _ _ H9) as [HB _]; [lia|]. congruence. }
  apply added_app; [apply added_refl|]. apply added_app.
  - destruct (is_dotted _ D) as (r & ->). apply (added_zero r). apply added_refl.
  - apply (IH (pre ++ keep ++ w) t eds eq_refl); [rewrite Et, <- !app_assoc; reflexivity|rewrite !blen_app; lia|assumption].
Qed.

(** ** None is left *)
Lemma is_dotted_number : forall w, dotted_number w -> dotted w = true.
Proof.
  intros w [[r ->] N]. unfold dotted. apply andb_true_intro. split; [|apply starts_with_iff; eauto].
  apply Bool.negb_true_iff. destruct (MoreLints.is_integer_lit (lit "." ++ r)) eqn:E; [|reflexivity]. exfalso. apply N.
  destruct (exists_last (l := lit "." ++ r)) as (l & z & El); [discriminate|]. rewrite El in E |- *. exists l. f_equal.
  unfold MoreLints.is_integer_lit, MoreLints.last_char in E. rewrite rev_app_distr in E. cbn [rev app] in E. apply N.eqb_eq in E. subst z. reflexivity.
Qed.
Lemma total_in : forall n l, In n l -> n <= total_of l.
Proof. induction l as [|m l IH]; [contradiction|]. intros [ -> | I ]; cbn [total_of]; [lia|specialize (IH I); lia]. Qed.
Lemma none_left : forall t p, reads_text t p -> in_program Z p = 0 ->
  forall j fs w x y, written t j fs (EAtom (ANum w)) x y -> Forall looked_into fs -> ~ dotted_number w.
Proof.
  intros t p Rd E j fs w x y W L D. apply is_dotted_number in D. destruct (written_tokens _ _ _ _ _ _ _ Rd W) as (b & m & a & _ & _ & N & _).
  apply nth_error_In in N. assert (I : In (many Z [] (plug fs (EAtom (ANum w)))) (map (many Z []) p)) by (apply in_map; exact N).
  apply total_in in I. unfold in_program in E. destruct (many_plug Z (only_zero nothing) fs L) as (K & Ek). rewrite Ek in I.
  rewrite (many_atom Z (only_zero nothing)) in I. cbn [own] in I. rewrite D in I. cbn [length] in I. lia.
Qed.

(** ** The run *)
Lemma zero_run_from : forall u p m t q fs, in_program Z q <= m -> reads_text t q -> fs p = Some t ->
  exists n fs' t', jrun (fun _ t => get_checks c_zero o0 u t) (fun _ => true) n p fs (JRead true) = (fs', JDone (Ok [])) /\
    fs' p = Some t' /\ harmless_text decimals t t' /\ zeros_added t t' /\ same_except p fs fs' /\
    (forall j fs w x y, written t' j fs (EAtom (ANum w)) x y -> Forall looked_into fs -> ~ dotted_number w).
Proof.
  intros u p. induction m as [m IH] using lt_wf_ind. intros t q fs Le Rd Hp.
  destruct (zero_pass u t q Rd) as (ds & sk & t1 & q1 & G & A & R1 & Sb & Last & More & eds & Fz & Sp).
  pose proof (splice_added _ _ _ _ Sp [] t eds eq_refl eq_refl eq_refl Fz) as Ad.
  assert (H1 : harmless_text decimals t t1) by (exists q, q1; auto).
  assert (Up : (upd fs p t1) p = Some t1) by apply upd_same.
  assert (Same : same_except p fs (upd fs p t1)) by (intros z Hz; unfold upd; rewrite (proj2 (teqb_neq z p) Hz); reflexivity).
  destruct sk.
  - destruct (IH (in_program Z q1)) with (t := t1) (q := q1) (fs := upd fs p t1) as (n & fs' & t' & J & F & H2 & A2 & S2 & G2); [specialize (More eq_refl); lia|lia|exact R1|exact Up|].
    exists (S (S n)), fs', t'. split; [rewrite (jrun_S_read _ _ _ _ _ _ t Hp), G, A, jrun_S_write; exact J|]. split; [exact F|]. split; [exact (harmless_trans _ _ _ _ H1 H2)|].
    split; [exact (added_trans _ _ A2 _ Ad)|]. split; [|exact G2]. intros z Hz. rewrite (S2 z Hz). exact (Same z Hz).
  - pose proof (no_more u t1 q1 R1 (Last eq_refl)) as G1. exists 3, (upd fs p t1), t1.
    split; [rewrite (jrun_S_read _ _ _ _ _ _ t Hp), G, A, jrun_S_write, (jrun_S_read _ _ _ _ _ _ t1 Up), G1; reflexivity|].
    pose proof (none_left t1 q1 R1 (Last eq_refl)) as NL. auto 10.
Qed.
Theorem zero_checked : forall c o u p fs t, run_with (lit "numeric_leading_zero") c o -> ~ document_path p -> fs p = Some t -> readable t ->
  exists n fs' t', jarl_check c o u n p fs = (fs', Some (Ok [])) /\ fs' p = Some t' /\ harmless_text decimals t t' /\ zeros_added t t' /\ same_except p fs fs' /\
    (forall j fs w x y, written t' j fs (EAtom (ANum w)) x y -> Forall looked_into fs -> ~ dotted_number w).
Proof.
  intros c o u p fs t R Nd Hp [q Rd]. assert (E : has_rmd_extension p = false) by (destruct (has_rmd_extension p) eqn:X; [exfalso; apply Nd, has_rmd_iff, X|reflexivity]). destruct (run_zero _ _ R) as [-> ->].
  destruct (zero_run_from u p _ t q fs (le_n _) Rd Hp) as (n & fs' & t' & J & F). exists n, fs', t'. split; [|exact F].
  unfold jarl_check, check_path, check_path_start. assert (Fx : fixing_mode c_zero = true) by reflexivity. rewrite Fx, E, J. reflexivity.
Qed.
Theorem zero_found : forall c o u t, run_with (lit "numeric_leading_zero") c o -> readable t ->
  exists ds, get_checks c o u t = Some ds /\ good_fixes decimals t (map d_fix ds) /\ real_fixes (map d_fix ds) = map d_fix ds /\
    forall j fs w x y, written t j fs (EAtom (ANum w)) x y -> Forall looked_into fs -> dotted_number w ->
      exists d, In d ds /\ d_start d = x /\ d_end d = y /\ d_fix d = mk_fix (lit "0" ++ w) x y false.
Proof.
  intros c o u t R [p Rd]. destruct (run_zero _ _ R) as [-> ->]. destruct (zero_good u t p Rd) as (ds & G & _ & Nums & Real & It & Bn & Od & Found).
  exists ds. split; [exact G|]. split; [|split; [exact Real|intros; eapply Found; eauto; apply is_dotted_number; assumption]].
  unfold good_fixes. rewrite Real. split; [exact Od|]. split; [exact Bn|]. eapply Forall_impl; [|exact Nums]. intros f (ed & <- & W). exists ed. split; [reflexivity|exact (number_edit_ok _ _ W)].
Qed.
