(** Language server: C29-C34, C48, C49. *)
From Verif Require Import Model.Text Model.Base Model.Rules Model.Fix Model.Driver Model.SuppressEdit Model.Rmd Model.Lsp
  Spec.LspSpec Spec.SuppressEditSpec
  Proofs.TextProofs Proofs.LspProofs Proofs.LspSync Proofs.LspDiag Proofs.LspGlob Proofs.LspWitness.

(** C29: positions and offsets. *)
Theorem C29_offset_has_its_position : forall (t pre rest : text) v enc, t = pre ++ rest ->
  exists p, offset_to_position (new_doc t v) (blen pre) enc = ROk p /\ after_prefix enc t pre p.
Proof. exact offset_to_position_total. Qed.
Print Assumptions C29_offset_has_its_position.
Theorem C29_round_trip : forall (t pre rest : text) v enc, t = pre ++ rest ->
  exists p, offset_to_position (new_doc t v) (blen pre) enc = ROk p /\ position_to_offset (new_doc t v) p enc = ROk (blen pre).
Proof.
  intros t pre rest v enc E. destruct (offset_to_position_total t pre rest v enc E) as (p & H1 & H2). exists p. split; auto.
  now apply position_to_offset_ok.
Qed.
Print Assumptions C29_round_trip.
(** UTF-16 and UTF-32: a position is accepted iff it stands for a place of the text, with the
    clamping of the protocol. *)
Theorem C29_position_accepted_iff : forall (t : text) v enc p off, enc <> UTF8 ->
  (position_to_offset (new_doc t v) p enc = ROk off <-> exists pre, blen pre = off /\ denotes enc t pre p).
Proof.
  intros t v enc p off He. split; [now apply position_to_offset_sound|]. intros (pre & <- & D). now apply position_to_offset_past.
Qed.
Print Assumptions C29_position_accepted_iff.
(** UTF-8: line and length of the line are checked. *)
Theorem C29_utf8_accepted_iff_partial : forall (t : text) v line ch off,
  position_to_offset (new_doc t v) (line, ch) UTF8 = ROk off <->
  exists a l b, t = a ++ l ++ b /\ newlines a = line /\ (a = [] \/ exists x, a = x ++ [nl]) /\ ~ In nl l /\
    (b = [] \/ exists r, b = nl :: r) /\ ch <= blen l /\ off = blen a + ch.
Proof. exact position_to_offset_utf8. Qed.
Print Assumptions C29_utf8_accepted_iff_partial.
Theorem C29_no_panic : forall (t : text) v enc p, position_to_offset (new_doc t v) p enc <> RPanic.
Proof. exact position_to_offset_no_panic. Qed.
Print Assumptions C29_no_panic.
(** UTF-8: not the character boundary (the edit then panics), and no clamping. *)
Theorem C29_utf8_inside_character_refuted : exists t p off, position_to_offset (new_doc t 0) p UTF8 = ROk off /\
  (forall pre, ~ denotes UTF8 t pre p) /\
  snd (apply_changes (new_doc t 0) [Change (Some (p, p)) (lit "x")] 1 UTF8) = SPanic.
Proof. exact utf8_inside. Qed.
Print Assumptions C29_utf8_inside_character_refuted.
Theorem C29_utf8_clamping_refuted : exists t pre p, denotes UTF8 t pre p /\ position_to_offset (new_doc t 0) p UTF8 = RErr.
Proof. exact utf8_past. Qed.
Print Assumptions C29_utf8_clamping_refuted.
Example C29_concrete : let t := [233%N] ++ lit "a" ++ [nl] ++ [128512%N] ++ lit "b" in
  position_to_offset (new_doc t 0) (1, 2) UTF16 = ROk 8 /\ offset_to_position (new_doc t 0) 8 UTF16 = ROk (1, 2) /\
  position_to_offset (new_doc t 0) (1, 1) UTF16 = RErr /\ position_to_offset (new_doc t 0) (0, 9) UTF16 = ROk 3.
Proof. vm_compute. auto. Qed.

(** C30: synchronisation. *)
Theorem C30_one_change : forall (t : text) v v' enc c t', enc <> UTF8 -> cg_range c <> None ->
  (apply_changes (new_doc t v) [c] v' enc = (new_doc t' v', SOk) <-> change_result enc t c t').
Proof. exact one_change. Qed.
Print Assumptions C30_one_change.
Theorem C30_one_change_utf8 : forall (t : text) v v' c t', exact_range UTF8 t c -> change_result UTF8 t c t' ->
  apply_changes (new_doc t v) [c] v' UTF8 = (new_doc t' v', SOk).
Proof. exact exact_change. Qed.
Print Assumptions C30_one_change_utf8.
(** Several changes: right when sent from the end of the text to its beginning. *)
Theorem C30_backward_changes_partial : forall enc t v v' l tail cs, t = text_before l tail -> ranged enc t [] l cs ->
  apply_changes (new_doc t v) (rev cs) v' enc = (new_doc (text_after l tail) v', SOk) /\
  changes_result enc t (rev cs) (text_after l tail).
Proof. exact backward_changes. Qed.
Print Assumptions C30_backward_changes_partial.
Theorem C30_result_unique : forall enc t cs x y, changes_result enc t cs x -> changes_result enc t cs y -> x = y.
Proof. intros enc t cs x y H. exact (changes_result_fun enc t cs x H y). Qed.
Print Assumptions C30_result_unique.
Theorem C30_sequential_refuted : exists t cs t' d, changes_result UTF16 t cs t' /\
  apply_changes (new_doc t 0) cs 1 UTF16 = (d, SOk) /\ dc_content d <> t'.
Proof. exact sequential_refuted. Qed.
Print Assumptions C30_sequential_refuted.
Theorem C30_full_text_refuted : exists t cs t' d, changes_result UTF16 t cs t' /\
  apply_changes (new_doc t 0) cs 1 UTF16 = (d, SErr) /\ dc_content d <> t'.
Proof. exact full_refuted. Qed.
Print Assumptions C30_full_text_refuted.
Example C30_concrete : let t := lit "ab" ++ [nl] ++ lit "cd" in
  let cs := [Change (Some ((0, 1), (0, 2))) (lit "X"); Change (Some ((1, 0), (1, 1))) (lit "YY")] in
  let l := [(lit "a", lit "b", lit "X"); ([nl], lit "c", lit "YY")] in
  t = text_before l (lit "d") /\ ranged UTF16 t [] l cs /\ text_after l (lit "d") = lit "aX" ++ [nl] ++ lit "YYd".
Proof.
  cbn zeta. split; [reflexivity|]. split; [|reflexivity]. repeat constructor.
  - exists [], (lit "a"), (lit "b" ++ [nl] ++ lit "cd"). repeat split; auto. vm_compute. intuition discriminate.
  - exists [], (lit "ab"), ([nl] ++ lit "cd"). repeat split; auto. vm_compute. intuition discriminate.
  - exists (lit "ab" ++ [nl]), [], (lit "cd"). repeat split; auto. right. exists (lit "ab"). reflexivity.
  - exists (lit "ab" ++ [nl]), (lit "c"), (lit "d"). repeat split; auto; [right; exists (lit "ab"); reflexivity|vm_compute; intuition discriminate].
Qed.

(** C31: sessions.  [s] is any state of the session. *)
Theorem C31_other_documents_untouched : forall enc es s u, (forall e, In e es -> ~ concerns u e) -> run_events enc s es u = s u.
Proof. exact run_other. Qed.
Print Assumptions C31_other_documents_untouched.
Theorem C31_open_sets_text : forall enc s u t v es, (forall e, In e es -> ~ concerns u e) ->
  run_events enc s (DidOpen u t v :: es) u = Some (new_doc t v).
Proof. intros. cbn. rewrite run_other by auto. apply set_same. Qed.
Print Assumptions C31_open_sets_text.
Theorem C31_known_after_open : forall enc s es1 u t v es2, (forall e, In e es2 -> ~ closes u e) ->
  run_events enc s (es1 ++ DidOpen u t v :: es2) u <> None.
Proof. intros. rewrite run_app. cbn. apply stays_known; auto. now rewrite set_same. Qed.
Print Assumptions C31_known_after_open.
Theorem C31_unknown_after_close : forall enc s es1 u es2, (forall e, In e es2 -> ~ opens u e) ->
  run_events enc s (es1 ++ DidClose u :: es2) u = None.
Proof.
  intros. rewrite run_app. cbn. apply stays_unknown; auto. destruct (run_events enc s es1 u) eqn:E; cbn; auto. apply set_same.
Qed.
Print Assumptions C31_unknown_after_close.
Theorem C31_never_opened_unknown : forall enc es u, (forall e, In e es -> ~ opens u e) -> run_events enc empty_session es u = None.
Proof. intros. apply stays_unknown; auto. Qed.
Print Assumptions C31_never_opened_unknown.
Theorem C31_unknown_rejected : forall enc s u, s u = None ->
  (forall cs v, handle enc s (DidChange u cs v) = (s, SErr)) /\ handle enc s (DidClose u) = (s, SErr).
Proof. intros enc s u H. cbn. rewrite H. auto. Qed.
Print Assumptions C31_unknown_rejected.
(** The server's copy is the editor's text, for well-behaved notifications. *)
Theorem C31_follows_the_editor_partial : forall enc u es s t v t', s u = Some (new_doc t v) -> orderly_history enc u t es t' ->
  exists v', run_events enc s es u = Some (new_doc t' v').
Proof. exact mirror. Qed.
Print Assumptions C31_follows_the_editor_partial.
Example C31_concrete : let u := lit "u" in let w := lit "w" in
  let es := [DidOpen w (lit "z") 1; DidChange u [Change (Some ((0, 1), (0, 1))) (lit "b")] 2; DidSave u; DidClose w] in
  orderly_history UTF16 u (lit "a") es (lit "ab") /\
  run_events UTF16 empty_session (DidOpen u (lit "a") 1 :: es) u = Some (new_doc (lit "ab") 2) /\
  run_events UTF16 empty_session (DidOpen u (lit "a") 1 :: es) w = None.
Proof.
  cbn zeta. split; [|split; vm_compute; reflexivity].
  apply oh_other; [cbn; discriminate|]. eapply oh_change.
  - left. eexists. split; [reflexivity|]. left. discriminate.
  - econstructor; [|constructor]. cbn. exists (lit "a"), [], [].
    split; [reflexivity|]. split; [left; apply (line0 UTF16 (lit "a") []); intros [X|[]]; discriminate|].
    split; [left; apply (line0 UTF16 (lit "a") []); intros [X|[]]; discriminate|]. reflexivity.
  - apply oh_save. apply oh_other; [cbn; discriminate|]. constructor.
Qed.

(** C48: refused notifications. *)
Theorem C48_refused_change_has_no_effect_partial : forall (t : text) v v' enc c d' st, enc <> UTF8 ->
  apply_changes (new_doc t v) [c] v' enc = (d', st) -> st <> SOk -> d' = new_doc t v /\ st = SErr.
Proof. exact one_change_rejected. Qed.
Print Assumptions C48_refused_change_has_no_effect_partial.
Theorem C48_refused_changes_refuted : exists es e s d, s = run_events UTF16 empty_session es /\
  s (lit "u") = Some d /\ snd (handle UTF16 (run_events UTF16 empty_session (firstn 1 es)) (nth 1 es (DidSave []))) = SErr /\ length es = 2 /\
  dc_version d = 1%Z /\ dc_content d <> lit "a" ++ [nl] ++ lit "b" /\
  snd (handle UTF16 s e) = SPanic.
Proof. exact rejected_refuted. Qed.
Print Assumptions C48_refused_changes_refuted.
Example C48_concrete : apply_changes (new_doc (lit "a") 1) [Change (Some ((3, 0), (3, 0))) (lit "x")] 2 UTF16 = (new_doc (lit "a") 1, SErr).
Proof. reflexivity. Qed.

(** C32: ranges of diagnostics and quick fixes. *)
Theorem C32_range_covers_text : forall enc (a m b : text),
  exists s e, lsp_range (blen a) (blen (a ++ m)) (a ++ m ++ b) enc = ROk (s, e) /\
    after_prefix enc (a ++ m ++ b) a s /\ after_prefix enc (a ++ m ++ b) (a ++ m) e.
Proof. exact lsp_range_ok. Qed.
Print Assumptions C32_range_covers_text.
Theorem C32_ranges_ordered : forall enc t (a m : text) s e, after_prefix enc t a s -> after_prefix enc t (a ++ m) e -> pos_le s e = true.
Proof. exact prefix_pos_le. Qed.
Print Assumptions C32_ranges_ordered.
Theorem C32_quick_fix_edit : forall d content enc, boundary content (f_start (d_fix d)) -> boundary content (f_end (d_fix d)) ->
  f_start (d_fix d) <= f_end (d_fix d) ->
  (code_action d content enc = ROk None /\ f_content (d_fix d) = [] /\ f_start (d_fix d) = f_end (d_fix d)) \/
  exists te, code_action d content enc = ROk (Some te) /\
    forall out, edit_result enc content (te_start te) (te_end te) (te_text te) out <->
      breplace (f_start (d_fix d)) (f_end (d_fix d)) (f_content (d_fix d)) content = Some out.
Proof. exact code_action_ok. Qed.
Print Assumptions C32_quick_fix_edit.
Theorem C32_no_fix_no_edit : forall d content enc, f_content (d_fix d) = [] -> f_start (d_fix d) = f_end (d_fix d) ->
  code_action d content enc = ROk None.
Proof. exact code_action_none. Qed.
Print Assumptions C32_no_fix_no_edit.
(** The fixes offered for a range are those of the diagnostics that touch it. *)
Theorem C32_quick_fixes_offered : forall content enc requested ds l,
  quick_fixes content enc requested ds = ROk l ->
  (forall d rg, In d ds -> lsp_range (d_start d) (d_end d) content enc = ROk rg -> pos_le (fst rg) (snd rg) = true) ->
  pos_le (fst requested) (snd requested) = true ->
  forall te, In te l <-> exists d rg, In d ds /\ lsp_range (d_start d) (d_end d) content enc = ROk rg /\
    touch rg requested /\ code_action d content enc = ROk (Some te).
Proof. exact quick_fixes_offered. Qed.
Print Assumptions C32_quick_fixes_offered.
Example C32_offered_concrete :
  let d := mk_diag (lit "any_is_na") 2 5 (mk_fix (lit "new") 2 5 false) in
  quick_fixes (lit "a bcd e") UTF16 ((0, 5), (0, 5)) [d] = ROk [TEdit (0, 2) (0, 5) (lit "new")] /\
  quick_fixes (lit "a bcd e") UTF16 ((0, 6), (0, 7)) [d] = ROk [].
Proof. split; reflexivity. Qed.
Theorem C32_conversions_agree : forall enc (pre rest : text) v,
  offset_to_position (new_doc (pre ++ rest) v) (blen pre) enc = byte_offset_to_lsp_position (blen pre) (pre ++ rest) enc.
Proof. exact positions_agree. Qed.
Print Assumptions C32_conversions_agree.
Example C32_concrete : let t := [233%N] ++ lit "a" ++ [nl] ++ [128512%N] ++ lit "b" in
  boundary t 8 /\ boundary t 9 /\ lsp_range 8 9 t UTF16 = ROk ((1, 2), (1, 3)) /\
  code_action (mk_diag (lit "x") 8 9 (mk_fix (lit "c") 8 9 false)) t UTF16 = ROk (Some (TEdit (1, 2) (1, 3) (lit "c"))).
Proof.
  cbn zeta. split; [exists ([233%N] ++ lit "a" ++ [nl] ++ [128512%N]), (lit "b"); auto|].
  split; [exists ([233%N] ++ lit "a" ++ [nl] ++ [128512%N] ++ lit "b"), []; auto|]. vm_compute. auto.
Qed.

(** C49: the quick fix that adds a suppression comment makes the edit of the command line. *)
Theorem C49_same_as_command_line_partial : forall enc src rule chain start, boundary src start ->
  (forall ch, chain = Some ch -> Forall (fun a => boundary src (a_start a)) ch) ->
  exists pt te, compute_insert_point src chain start = Some pt /\ suppress_action src rule chain start = ROk te /\
    (pt_newline pt = false \/ plain_before enc src (pt_offset pt) ->
     forall out, edit_result enc src (te_start te) (te_end te) (te_text te) out <->
       add_comments (lit "<reason>") [Edit (pt_offset pt) (pt_indent pt) (pt_newline pt) rule] src = Some out).
Proof. exact suppress_ok. Qed.
Print Assumptions C49_same_as_command_line_partial.
Theorem C49_chunk_comment : forall enc content rule c, In c (extract_r_chunks content) ->
  exists te, chunk_action content rule c = ROk te /\
    te_text te = lit "#| jarl-ignore-chunk:" ++ [nl] ++ lit "#|   - " ++ rule ++ lit ": <reason>" ++ [nl] /\
    forall out, edit_result enc content (te_start te) (te_end te) (te_text te) out <-> insert_str (r_start c) (te_text te) content = Some out.
Proof. exact chunk_action_ok. Qed.
Print Assumptions C49_chunk_comment.
Theorem C49_rmd_inline_partial : forall enc content rule chain start cs te, incl cs (extract_r_chunks content) ->
  (forall c, In c cs -> r_start c <= start <= r_start c + blen (r_code c) -> boundary (r_code c) (start - r_start c)) ->
  (forall c p ch, In c cs -> chain c p = Some ch -> Forall (fun a => boundary (r_code c) (a_start a)) ch) ->
  suppress_action_rmd content rule chain start cs = ROk (Some te) ->
  exists c pt, In c cs /\ r_start c <= start <= r_start c + blen (r_code c) /\
    compute_insert_point (r_code c) (chain c (start - r_start c)) (start - r_start c) = Some pt /\
    (pt_newline pt = true -> plain_before enc content (r_start c + pt_offset pt) ->
     forall out, edit_result enc content (te_start te) (te_end te) (te_text te) out <->
       insert_str (r_start c + pt_offset pt) (format_suppression_comments [rule] (lit "<reason>") (pt_indent pt) true) content = Some out).
Proof. exact suppress_rmd_ok. Qed.
Print Assumptions C49_rmd_inline_partial.
(** Byte columns are used whatever the encoding. *)
Theorem C49_utf16_column_refuted : exists src chain start pt te out,
  boundary src start /\ Forall (fun a => boundary src (a_start a)) chain /\
  compute_insert_point src (Some chain) start = Some pt /\ suppress_action src (lit "any_is_na") (Some chain) start = ROk te /\
  add_comments (lit "<reason>") [Edit (pt_offset pt) (pt_indent pt) (pt_newline pt) (lit "any_is_na")] src = Some out /\
  ~ edit_result UTF16 src (te_start te) (te_end te) (te_text te) out.
Proof. exact suppress_utf16_refuted. Qed.
Print Assumptions C49_utf16_column_refuted.
(** In documents, the line of the chunk is taken for a line of the file: the comment goes to the
    top of the document, not above the code on its third line. *)
Theorem C49_rmd_line_refuted : exists content chain start te, boundary content start /\
  suppress_action_rmd content (lit "any_is_na") chain start (extract_r_chunks content) = ROk (Some te) /\
  te_start te = (0, 0) /\ te_end te = (0, 0) /\ (exists c, extract_r_chunks content = [c] /\ r_start c = start /\ 0 < start) /\
  (forall c p ch, In c (extract_r_chunks content) -> chain c p = Some ch -> Forall (fun a => boundary (r_code c) (a_start a)) ch).
Proof. exact suppress_rmd_refuted. Qed.
Print Assumptions C49_rmd_line_refuted.
Example C49_concrete : suppress_action (lit "x <- 1" ++ [nl] ++ lit "  any(is.na(y))") (lit "any_is_na") (Some [Anc true false 9]) 9
  = ROk (TEdit (1, 0) (1, 0) (lit "  # jarl-ignore any_is_na: <reason>" ++ [nl])).
Proof. vm_compute. reflexivity. Qed.

(** C33: exclusion patterns. *)
Theorem C33_file_pattern_iff : forall path path' pattern, with_slashes path path' -> (forall r, pattern <> r ++ [47%N]) ->
  (matches_pattern path pattern = true <-> exists f, base_name path' f /\ glob pattern f).
Proof. intros path path' pattern H. apply with_slashes_normalize in H. subst path'. apply file_pattern. Qed.
Print Assumptions C33_file_pattern_iff.
Theorem C33_directory_pattern_iff_partial : forall path path' dir n, with_slashes path path' -> (forall s, dir <> s ++ [47%N]) ->
  (matches_pattern path (dir ++ repeat 47%N (S n)) = true <-> component path' dir).
Proof. intros path path' dir n H. apply with_slashes_normalize in H. subst path'. apply directory_pattern. Qed.
Print Assumptions C33_directory_pattern_iff_partial.
(** The file name itself counts as a component. *)
Theorem C33_directory_refuted : exists path dir, base_name path dir /\ matches_pattern path (dir ++ [47%N]) = true /\
  ~ exists a b, path = a ++ dir ++ [47%N] ++ b.
Proof.
  exists (lit "/home/renv"), (lit "renv"). split; [|split; [reflexivity|]].
  - split; [vm_compute; intuition discriminate|]. exists (lit "/home/"). split; [reflexivity|]. right. exists (lit "/home"). reflexivity.
  - intros (a & b & E). assert (C : contains (lit "renv/") (lit "/home/renv") = false) by reflexivity.
    assert (contains (lit "renv/") (lit "/home/renv") = true); [|congruence]. apply contains_iff. exists a, b. rewrite E. reflexivity.
Qed.
Print Assumptions C33_directory_refuted.
(** A pattern with a slash inside, such as [R/generated/], never matches anything. *)
Theorem C33_nested_pattern_never_matches : forall path a b n, b <> [] -> (forall s, b <> s ++ [47%N]) ->
  matches_pattern path (a ++ 47%N :: b ++ repeat 47%N n) = false.
Proof. exact nested_pattern. Qed.
Print Assumptions C33_nested_pattern_never_matches.
Theorem C33_excluded_iff : forall defaults default_exclude exclude include path,
  excluded defaults default_exclude exclude include path = true <->
  (exists p, (default_exclude <> Some false /\ In p defaults \/ exists l, exclude = Some l /\ In p l) /\ matches_pattern path p = true) \/
  (exists l, include = Some l /\ l <> [] /\ forall p, In p l -> matches_pattern path p = false).
Proof. exact excluded_iff. Qed.
Print Assumptions C33_excluded_iff.
Example C33_concrete : matches_pattern (lit "/p/R/RcppExports.R") (lit "Rcpp*.R") = true /\ matches_pattern (lit "/p/R/Rcpp.r") (lit "Rcpp*.R") = false /\
  matches_pattern (lit "/p/renv/a.R") (lit "renv/") = true /\ matches_pattern (lit "/p/R/a.R") (lit "R/a.R") = false /\
  glob (lit "Rcpp*.R") (lit "RcppExports.R").
Proof.
  repeat split; try reflexivity. assert (E : matches_pattern (lit "RcppExports.R") (lit "Rcpp*.R") = true) by reflexivity.
  apply file_pattern in E.
  - destruct E as (f & Hf & G). assert (f = lit "RcppExports.R"); [|now subst]. eapply file_name_fun; [exact Hf|].
    split; [vm_compute; intuition discriminate|]. exists []. auto.
  - intros r E'. apply (f_equal (fun l => last l 0%N)) in E'. rewrite last_last in E'. discriminate.
Qed.

(** C34: encoding. *)
Theorem C34_negotiated_encoding : forall offered, let e := negotiate offered in
  (e = UTF16 \/ exists l, offered = Some l /\ In (Some e) l) /\
  (e = UTF8 <-> exists l, offered = Some l /\ In (Some UTF8) l).
Proof. exact negotiate_ok. Qed.
Print Assumptions C34_negotiated_encoding.
Example C34_concrete : negotiate (Some [Some UTF16; Some UTF8]) = UTF8 /\ negotiate (Some [Some UTF32]) = UTF16 /\ negotiate None = UTF16.
Proof. auto. Qed.
