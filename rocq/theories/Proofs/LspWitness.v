(** Counterexamples. *)
From Verif Require Import Model.Text Model.Base Model.Rules Model.SuppressEdit Model.Rmd Model.Lsp
  Spec.LspSpec Spec.SuppressEditSpec Proofs.TextProofs Proofs.SplitProofs Proofs.SuppressEditProofs Proofs.LspProofs Proofs.LspSync Proofs.LspDiag.

Definition e_acute : text := [233%N].
(** UTF-8: a position inside a character. *)
Lemma utf8_inside : exists t p off, position_to_offset (new_doc t 0) p UTF8 = ROk off /\ (forall pre, ~ denotes UTF8 t pre p) /\
  snd (apply_changes (new_doc t 0) [Change (Some (p, p)) (lit "x")] 1 UTF8) = SPanic.
Proof.
  exists e_acute, (0, 1), 1. split; [reflexivity|]. split; [|reflexivity].
  intros pre D. destruct (denotes_prefix _ _ _ _ D) as (r & E).
  assert (H : pre = [] \/ pre = e_acute).
  { destruct pre as [|c pre]; auto. injection E as <- E. destruct pre; [auto|discriminate]. }
  assert (A0 : after_prefix UTF8 e_acute [] (0, 0)) by (exists [], [], e_acute; repeat split; auto).
  assert (A2 : after_prefix UTF8 e_acute e_acute (0, 2)).
  { exists [], e_acute, []. repeat split; auto. intros [X|[]]. discriminate. }
  destruct H as [ -> | -> ].
  - destruct D as [D|(q & D & L & [X|(b & X)])]; [|discriminate|discriminate]. pose proof (after_prefix_fun _ _ _ _ _ D A0). discriminate.
  - destruct D as [D|(q & D & L & _)].
    + pose proof (after_prefix_fun _ _ _ _ _ D A2). discriminate.
    + pose proof (after_prefix_fun _ _ _ _ _ D A2) as X. injection X as ->. cbn in L. lia.
Qed.
(** UTF-8: a position past the end of the line is refused. *)
Lemma utf8_past : exists t pre p, denotes UTF8 t pre p /\ position_to_offset (new_doc t 0) p UTF8 = RErr.
Proof.
  exists (lit "a"), (lit "a"), (0, 5). split; [|reflexivity]. right. exists 1. split; [|split; [cbn; lia|now left]].
  exists [], (lit "a"), []. repeat split; auto. intros [X|[]]. discriminate.
Qed.

(** Typing "ab" sent as two changes. *)
Definition typing : list change := [Change (Some ((0, 0), (0, 0))) (lit "a"); Change (Some ((0, 1), (0, 1))) (lit "b")].
Lemma line0 enc (l rest : text) : ~ In nl l -> after_prefix enc (l ++ rest) l (0, units enc l).
Proof. intros H. exists [], l, rest. repeat split; auto. now rewrite newlines_none. Qed.
Lemma sequential_refuted : exists t cs t' d, changes_result UTF16 t cs t' /\ apply_changes (new_doc t 0) cs 1 UTF16 = (d, SOk) /\ dc_content d <> t'.
Proof.
  exists [], typing, (lit "ab"). eexists. split; [|split; [reflexivity|vm_compute; discriminate]].
  econstructor; [|econstructor; [|constructor]].
  - cbn. exists [], [], []. repeat split; try (left; apply (line0 UTF16 [] [])); auto.
  - cbn. exists (lit "a"), [], []. repeat split; try (left; apply (line0 UTF16 (lit "a") [])); auto; intros [X|[]]; discriminate.
Qed.
Lemma full_refuted : exists t cs t' d, changes_result UTF16 t cs t' /\ apply_changes (new_doc t 0) cs 1 UTF16 = (d, SErr) /\ dc_content d <> t'.
Proof.
  exists [], [Change None (lit "x")], (lit "x"), (new_doc [] 0). split; [|split; [reflexivity|discriminate]].
  econstructor; [reflexivity|constructor].
Qed.
(** A refused notification leaves the document half changed; the next one ends the server. *)
Definition bad_events : list event :=
  [DidOpen (lit "u") (lit "a" ++ [nl] ++ lit "b") 1;
   DidChange (lit "u") [Change (Some ((0, 0), (1, 1))) []; Change (Some ((1, 0), (1, 1))) []; Change (Some ((0, 1), (1, 0))) []] 2].
Lemma rejected_refuted : exists es e s d, s = run_events UTF16 empty_session es /\
  s (lit "u") = Some d /\ snd (handle UTF16 (run_events UTF16 empty_session (firstn 1 es)) (nth 1 es (DidSave []))) = SErr /\ length es = 2 /\
  dc_version d = 1%Z /\ dc_content d <> lit "a" ++ [nl] ++ lit "b" /\
  snd (handle UTF16 s e) = SPanic.
Proof.
  exists bad_events, (DidChange (lit "u") [Change (Some ((1, 0), (1, 0))) (lit "x")] 3). eexists _, _.
  split; [reflexivity|]. split; [vm_compute; reflexivity|]. split; [vm_compute; reflexivity|]. split; [reflexivity|]. split; [reflexivity|].
  split; [vm_compute; discriminate|]. vm_compute. reflexivity.
Qed.

(** ["é"; any(is.na(x))]: the UTF-16 column of the call is 5, its byte column 6. *)
Definition quoted : text := [34%N; 233%N; 34%N; 59%N; 32%N].
Definition semicolon : text := quoted ++ lit "any(is.na(x))".
Definition semicolon_chain : list anc := [Anc true false 6; Anc false false 0].
Lemma suppress_utf16_refuted : exists src chain start pt te out,
  boundary src start /\ Forall (fun a => boundary src (a_start a)) chain /\
  compute_insert_point src (Some chain) start = Some pt /\ suppress_action src (lit "any_is_na") (Some chain) start = ROk te /\
  add_comments (lit "<reason>") [Edit (pt_offset pt) (pt_indent pt) (pt_newline pt) (lit "any_is_na")] src = Some out /\
  ~ edit_result UTF16 src (te_start te) (te_end te) (te_text te) out.
Proof.
  exists semicolon, semicolon_chain, 6. eexists _, _, _.
  assert (B : boundary semicolon 6) by (exists quoted, (lit "any(is.na(x))"); auto).
  split; [exact B|]. split. { repeat constructor; auto. exists [], semicolon. auto. }
  split; [vm_compute; reflexivity|]. split; [vm_compute; reflexivity|]. split; [vm_compute; reflexivity|].
  intros (a & m & b & E & Da & Dm & O). cbn [te_start te_end te_text] in *.
  assert (A : after_prefix UTF16 semicolon (quoted ++ lit "a") (0, 6)).
  { change semicolon with ((quoted ++ lit "a") ++ lit "ny(is.na(x))"). apply (line0 UTF16 (quoted ++ lit "a")). vm_compute. intuition discriminate. }
  pose proof (denotes_fun _ _ _ _ _ Da (or_introl A)) as X. pose proof (denotes_fun _ _ _ _ _ Dm (or_introl A)) as Y. subst a.
  assert (m = []) as -> by (rewrite <- (app_nil_r (quoted ++ lit "a")) in Y at 2; now apply app_inv_head in Y).
  change semicolon with ((quoted ++ lit "a") ++ lit "ny(is.na(x))") in E. apply app_inv_head in E. cbn [app] in E. subst b. vm_compute in O. discriminate.
Qed.
(** A chunk of a document: the comment goes to the top of the document. *)
Definition fence : text := [96%N; 96%N; 96%N].
Definition small_rmd : text := lit "text" ++ [nl] ++ fence ++ lit "{r}" ++ [nl] ++ lit "any(is.na(x))" ++ [nl] ++ fence ++ [nl].
Lemma suppress_rmd_refuted : exists content chain start te, boundary content start /\
  suppress_action_rmd content (lit "any_is_na") chain start (extract_r_chunks content) = ROk (Some te) /\
  te_start te = (0, 0) /\ te_end te = (0, 0) /\ (exists c, extract_r_chunks content = [c] /\ r_start c = start /\ 0 < start) /\
  (forall c p ch, In c (extract_r_chunks content) -> chain c p = Some ch -> Forall (fun a => boundary (r_code c) (a_start a)) ch).
Proof.
  exists small_rmd, (fun _ _ => Some [Anc true false 0; Anc false false 0]), 12. eexists.
  split. { exists (lit "text" ++ [nl] ++ fence ++ lit "{r}" ++ [nl]), (lit "any(is.na(x))" ++ [nl] ++ fence ++ [nl]). split; reflexivity. }
  split; [vm_compute; reflexivity|]. split; [reflexivity|]. split; [reflexivity|]. split.
  - eexists. split; [vm_compute; reflexivity|]. cbn. lia.
  - intros c p ch _ [= <-]. assert (boundary (r_code c) 0) by (exists [], (r_code c); auto). repeat constructor; auto.
Qed.
