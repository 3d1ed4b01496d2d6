(** Fixes as edits of the text of a file (C84), and what is reported for which command line (C85). *)
From Verif Require Import Spec.RText Spec.RSearch Spec.ConfigSpec Model.Rules.
From Verif Require Import Proofs.TextProofs Proofs.ConfigProofs Proofs.DriverProofs Proofs.RFuel Proofs.FileRefute Proofs.ReplaceText Proofs.Cuts Proofs.WholeProofs.
From Verif Require Import Proofs.LintNested.

(** ** C84: a fix replaces an expression of the text, and nothing else is read differently *)
(** The bytes [x] to [y] of the file are the expression [e] of its statement [j]; they are replaced by
    a text that R reads as the expression [e'], and that R does not run together with what is
    before and after it.  Then the tokens of the new file are those of the old one with the tokens of [e']
    in place of those of [e]. *)
Theorem C84_only_the_expression_partial : forall t t' p j fs e x y w e',
  reads_text t p -> written t j fs e x y -> breplace x y w t = Some t' ->
  text_tokens w (toks e') -> breaks_enclosed w -> cut_at t' x -> cut_at t' (x + blen w) ->
  nth_error p j = Some (plug fs e) /\
  text_tokens t (edited (place_in p j fs) (toks e)) /\ text_tokens t' (edited (place_in p j fs) (toks e')).
Proof. exact replace_tokens. Qed.
Print Assumptions C84_only_the_expression_partial.

(** So what is proved about the tokens of a fix (C58 to C67) holds of the text: a fix that is harmless
    there leaves a file that R can read and that does the same thing, ... *)
Theorem C84_harmless_in_the_text_partial : forall t t' p j fs e r x y w e1,
  reads_text t p -> nth_error p j = Some (plug fs e) -> 
  written t j (at_frames r) (at_node r) x y -> new_text r = Some (toks e1) -> breplace x y w t = Some t' ->
  text_tokens w (toks e1) -> breaks_enclosed w -> cut_at t' x -> cut_at t' (x + blen w) ->
  node_of_file (place_in p j fs) e /\ forall P, fix_harmless P (place_in p j fs) e r -> harmless_text P t t'.
Proof.
  intros t t' p j fs e r x y w e1 Rd St Wr Nt Br Tw Be C1 C2. split; [exact (node_here t p j fs e Rd St)|].
  exact (fixed_harmless t t' p j fs e r x y w e1 Rd St Wr Nt Br Tw Be C1 C2).
Qed.
Print Assumptions C84_harmless_in_the_text_partial.
(** ... and one that is a single expression there is one in the new file, at the place reported. *)
Theorem C84_one_expression_in_the_text_partial : forall t t' p j fs e r x y w e1 shape,
  reads_text t p -> nth_error p j = Some (plug fs e) ->
  written t j (at_frames r) (at_node r) x y -> new_text r = Some (toks e1) -> breplace x y w t = Some t' ->
  text_tokens w (toks e1) -> breaks_enclosed w -> cut_at t' x -> cut_at t' (x + blen w) ->
  fix_is_one_expression shape (place_in p j fs) r ->
  exists e', toks e' = toks e1 /\ shape e' /\ reads_text t' (file_with (fix_place (place_in p j fs) r) e').
Proof.
  intros t t' p j fs e r x y w e1 shape Rd St Wr Nt Br Tw Be C1 C2.
  exact (fixed_one t t' p j fs r x y w e1 Rd Wr Nt Br Tw Be C1 C2 shape).
Qed.
Print Assumptions C84_one_expression_in_the_text_partial.

(** The two conditions on cuts hold in the usual places; in particular wherever a call is replaced by a
    call: both start with a name, and the new one ends with a parenthesis. *)
Theorem C84_usual_places : forall A B C w j fs e, written (A ++ B ++ C) j fs e (blen A) (blen (A ++ B)) ->
  starts_well A B w -> ends_well w C -> cut_at (A ++ w ++ C) (blen A) /\ cut_at (A ++ w ++ C) (blen A + blen w).
Proof. exact usual_cuts. Qed.
Print Assumptions C84_usual_places.
Example C84_usual_places_met :
  let A := lit "y <- f(-" in let B := lit "any(is.na(x))" in let C := lit "*2)" in let w := lit "anyNA(x)" in
  exists j fs e, written (A ++ B ++ C) j fs e (blen A) (blen (A ++ B)) /\ starts_well A B w /\ ends_well w C.
Proof.
  cbn zeta. set (v n := EAtom (AId n)).
  exists 0, [FUn UNeg; FBinL BMul false (EAtom (ANum (lit "2"))); FCallA (v (lit "f")) [] None []; FBinR (BAssign (lit "<-")) false (v (lit "y"))].
  exists (ECall (v (lit "any")) [(None, Some (ECall (v (lit "is.na")) [(None, Some (v (lit "x")))]))]).
  split; [apply is_written; vm_compute; auto|]. split.
  - eexists _, _. split; [vm_compute; reflexivity|]. split; [reflexivity|]. left. eexists _, _. split; [vm_compute; reflexivity|]. right. split; reflexivity.
  - exists [(RWord, lit "anyNA"); (ROp, lit "("); (RWord, lit "x")], ROp, (lit ")"). split; [vm_compute; reflexivity|]. right; left. split; [reflexivity|left; reflexivity].
Qed.

(** Not cut: the new code runs together with [else] before it. *)
Theorem C84_run_together_refuted :
  let t := lit "if (a) b else!(x > y)" in let t' := lit "if (a) b elsex <= y" in let w := lit "x <= y" in
  exists j fs e e', written t j fs e 13 21 /\ breplace 13 21 w t = Some t' /\ text_tokens w (toks e') /\ breaks_enclosed w /\ ~ readable t'.
Proof.
  cbn zeta. exists 0, [FIfE (EAtom (AId (lit "a"))) (EAtom (AId (lit "b")))].
  exists (EUn UNot (EParen (EBin (BCmp CGt) false (EAtom (AId (lit "x"))) (EAtom (AId (lit "y")))))).
  exists (EBin (BCmp CLe) false (EAtom (AId (lit "x"))) (EAtom (AId (lit "y")))).
  split; [apply is_written; vm_compute; auto|]. split; [vm_compute; reflexivity|]. split; [eexists; split; vm_compute; reflexivity|].
  split; [eexists; split; vm_compute; reflexivity|]. not_reading.
Qed.
Print Assumptions C84_run_together_refuted.

(** The second statement of the body of a function, after a comment and a line break. *)
Example C84_hypotheses_met :
  let t := of_lines [lit "f <- function(x) {"; lit "  y # a comment"; lit "  any(is.na(x)) + 1"; lit "}"] in
  let t' := of_lines [lit "f <- function(x) {"; lit "  y # a comment"; lit "  anyNA(x) + 1"; lit "}"] in
  let w := lit "anyNA(x)" in let v n := EAtom (AId n) in
  let fs := [FBinL BAdd false (EAtom (ANum (lit "1"))); FBraces [v (lit "y")] []; FFunB [(lit "x", None)]; FBinR (BAssign (lit "<-")) false (v (lit "f"))] in
  let e := ECall (v (lit "any")) [(None, Some (ECall (v (lit "is.na")) [(None, Some (v (lit "x")))]))] in
  let e1 := ECall (v (lit "anyNA")) [(None, Some (v (lit "x")))] in
  exists p r, reads_text t p /\ nth_error p 0 = Some (plug fs e) /\ any_is_na fs e = Some r /\
    written t 0 (at_frames r) (at_node r) 37 50 /\ new_text r = Some (toks e1) /\ breplace 37 50 w t = Some t' /\
    text_tokens w (toks e1) /\ breaks_enclosed w /\ cut_at t' 37 /\ cut_at t' (37 + blen w) /\
    (forall s, on s (lit "any_is_na") = true -> fires s (lit "any_is_na") fs e r) /\
    fix_harmless (fun _ => True) (place_in p 0 fs) e r /\ harmless_text (fun _ => True) t t'.
Proof.
  cbn zeta. set (v n := EAtom (AId n)).
  set (t := of_lines _). set (t' := of_lines [lit "f <- function(x) {"; lit "  y # a comment"; lit "  anyNA(x) + 1"; lit "}"]).
  set (fs := [FBinL BAdd false (EAtom (ANum (lit "1"))); FBraces [v (lit "y")] []; FFunB [(lit "x", None)]; FBinR (BAssign (lit "<-")) false (v (lit "f"))]).
  set (e := ECall (v (lit "any")) _). set (e1 := ECall (v (lit "anyNA")) [(None, Some (v (lit "x")))]).
  set (p := [plug fs e]).
  assert (Rd : reads_text t p) by (eexists; split; [vm_compute; reflexivity|apply parse_reads; vm_compute; reflexivity]).
  destruct (any_is_na fs e) as [r|] eqn:Er; [|vm_compute in Er; discriminate].
  assert (Ef : at_frames r = fs /\ at_node r = e /\ new_text r = Some (toks e1)) by (vm_compute in Er; injection Er as <-; vm_compute; auto).
  destruct Ef as (Ef & En & Et). exists p, r. rewrite Ef, En.
  assert (W : written t 0 fs e 37 50) by (apply is_written; vm_compute; auto 8).
  assert (Br : breplace 37 50 (lit "anyNA(x)") t = Some t') by (vm_compute; reflexivity).
  assert (Tw : text_tokens (lit "anyNA(x)") (toks e1)) by (eexists; split; vm_compute; reflexivity).
  assert (Be : breaks_enclosed (lit "anyNA(x)")) by (eexists; split; vm_compute; reflexivity).
  assert (C1 : cut_at t' 37).
  { exists (lit "f <- function(x) {
  y # a comment
  "), (lit "anyNA(x) + 1
}
"). split; [vm_compute; reflexivity|]. split; [vm_compute; reflexivity|]. eexists _, _. repeat split; vm_compute; reflexivity. }
  assert (C2 : cut_at t' (37 + blen (lit "anyNA(x)"))).
  { exists (lit "f <- function(x) {
  y # a comment
  anyNA(x)"), (lit " + 1
}
"). split; [vm_compute; reflexivity|]. split; [vm_compute; reflexivity|]. eexists _, _. repeat split; vm_compute; reflexivity. }
  assert (H : fix_harmless (fun _ => True) (place_in p 0 fs) e r).
  { apply RAlike.both_harmless, (any_is_na_harmless (place_in p 0 fs) e r (v (lit "x")) fs e); [exact (node_here t p 0 fs e Rd eq_refl)|exact Er|apply nested_plain; reflexivity|reflexivity|reflexivity]. }
  do 11 (split; [first [exact Rd|reflexivity|exact W|exact Et|exact Br|exact Tw|exact Be|exact C1|exact C2|idtac]|]).
  { intros s On. split; [exact On|]. exists (total any_is_na), [r]. split; [right; right; left; reflexivity|]. split; [unfold total; rewrite Er; reflexivity|left; reflexivity]. }
  split; [exact H|].
  refine (fixed_harmless t t' p 0 fs e r 37 50 _ e1 Rd eq_refl _ Et Br Tw Be C1 C2 _ H). rewrite Ef, En. exact W.
Qed.

(** ** C85: what is reported and fixed is what was asked for *)
(** Every diagnostic is of a rule that was selected, is not ignored and that the version of R allows. *)
Theorem C85_only_selected : forall a toml descs c o unreach t ds d, only_functions unreach ->
  build_config a toml descs = ROk c -> get_checks c o unreach t = Some ds -> In d ds ->
  exists r, d_rule d = rule_name r /\ (selected a toml r \/ extended a toml r) /\ ~ ignored a toml r /\ version_allows (c_version c) r.
Proof.
  intros a toml descs c o u t ds d U H G I. destruct (reported_rule _ _ _ _ _ _ U G I) as (r & Ir & E). exists r. split; [exact E|].
  apply (applied_rule _ _ _ _ _ H) in Ir. apply build_inv in H. apply H in Ir. tauto.
Qed.
Print Assumptions C85_only_selected.

(** The range of every finding of a rule that runs is reported. *)
Theorem C85_all_reported : forall c o unreach t ds p j fs e n r, only_functions unreach ->
  get_checks c o unreach t = Some ds -> reads_text t p -> nth_error p j = Some (plug fs e) -> reached fs e ->
  fires (settings_of c o unreach) n fs e r -> n <> lit "unreachable_code" ->
  exists d x y, In d ds /\ d_rule d = n /\ written t j (at_frames r) (at_node r) x y /\ d_start d = x /\ d_end d = y.
Proof. exact found_reported. Qed.
Print Assumptions C85_all_reported.

(** A fix is offered only if the rule has one and the configuration allows it; with [--fix] alone,
    only if the fix is safe. *)
Theorem C85_fixes_allowed : forall a toml descs c o unreach t ds d, only_functions unreach ->
  build_config a toml descs = ROk c -> get_checks c o unreach t = Some ds -> In d ds -> offers_fix d ->
  exists r, d_rule d = rule_name r /\ rule_fix r <> FixNone /\ ~ listed (toml_field s_unfixable toml) r /\
    (forall l, toml_field s_fixable toml = Some l -> lists l r) /\
    (a_fix a = true -> a_unsafe a = false -> a_fix_only a = false -> rule_fix r = FixSafe).
Proof. exact fix_allowed. Qed.
Print Assumptions C85_fixes_allowed.

(** Without [--fix] and [--unsafe-fixes] no file is changed, and the diagnostics are those of the text. *)
Theorem C85_read_only : forall a toml descs c o unreach n p fs fs' res,
  build_config a toml descs = ROk c -> a_fix a = false -> a_unsafe a = false ->
  jarl_check c o unreach n p fs = (fs', res) ->
  (forall q, fs' q = fs q) /\
  forall t, fs p = Some t -> res = Some (match get_checks c o unreach t with Some ds => Ok ds | None => Err ELint end).
Proof. exact lint_read_only. Qed.
Print Assumptions C85_read_only.

(** [jarl check --fix --select any_is_na,equals_na] on a file with findings of three rules. *)
Example C85_hypotheses_met : forall unreach, exists c o ds,
  run_with (lit "any_is_na,equals_na") c o /\
  get_checks c o unreach (of_lines [lit "any(is.na(x))"; lit "y == NA"; lit "any(duplicated(z))"]) = Some ds /\
  map d_rule ds = [lit "any_is_na"; lit "equals_na"] /\ Forall offers_fix ds.
Proof.
  intros u. destruct (build_config (fix_args (lit "any_is_na,equals_na")) None []) as [c| |] eqn:B; [|vm_compute in B; discriminate..].
  exists c, o0. eexists. split; [split; [exact B|vm_compute; reflexivity]|]. vm_compute in B. injection B as <-.
  split; [vm_compute; reflexivity|]. split; [reflexivity|]. repeat constructor; discriminate.
Qed.
