(** What a terminal shows (C98), and the headers of sections (C94). *)
From Verif Require Import Model.Text Model.Base Model.Rules Model.Output Spec.OutputSpec.
From Verif Require Import Proofs.TextProofs Proofs.RulesProofs Proofs.OutputProofs.

Lemma screen_shows : forall t link r, no_escape t -> screen (Shows link) (t ++ r) = linked link t ++ screen (Shows link) r.
Proof.
  induction t as [|c t IH]; intros link r H; [reflexivity|]. cbn [app screen linked map].
  destruct (N.eqb_spec c 27) as [->|_]; [exfalso; apply H; left; reflexivity|].
  rewrite IH; [reflexivity|]. intro K. apply H. right. exact K.
Qed.
Lemma screen_command : forall t link so_far r, no_escape t ->
  screen (Command link so_far) (t ++ esc ++ lit "\" ++ r) = screen (Shows (after_command link (so_far ++ t))) r.
Proof.
  induction t as [|c t IH]; intros link so_far r H.
  - rewrite app_nil_r. reflexivity.
  - cbn [app screen]. destruct (N.eqb_spec c 27) as [->|_]; [exfalso; apply H; left; reflexivity|].
    rewrite IH; [|intro K; apply H; right; exact K]. rewrite <- app_assoc. reflexivity.
Qed.
Lemma screen_link : forall t r, no_escape t ->
  screen (Shows None) (make_hyperlink t ++ r) = linked (Some (rule_page t)) t ++ screen (Shows None) r.
Proof.
  intros t r H. unfold make_hyperlink. rewrite <- !app_assoc.
  change (esc ++ lit "]8;;" ++ ?x) with (27%N :: 93%N :: lit "8;;" ++ x).
  assert (E : forall x y, lit "8;;" ++ lit "https://jarl.etiennebacher.com/rules/" ++ x ++ y = (lit "8;;" ++ rule_page x) ++ y).
  { intros x y. unfold rule_page. rewrite <- !app_assoc. reflexivity. }
  rewrite E. cbn [screen]. change (27 =? 27)%N with true. change (93 =? 93)%N with true. cbv iota.
  rewrite screen_command.
  - cbn [app]. assert (A : after_command None (lit "8;;" ++ rule_page t) = Some (rule_page t)) by reflexivity.
    rewrite A. rewrite screen_shows by exact H. f_equal.
  - intro K. apply in_app_or in K. destruct K as [K|K].
    + revert K. vm_compute. intuition discriminate.
    + unfold rule_page in K. apply in_app_or in K. destruct K as [K|K]; [|exact (H K)].
      revert K. vm_compute. intuition discriminate.
Qed.
Lemma screen_plain : forall t, no_escape t -> on_screen t = linked None t.
Proof.
  intros t H. unfold on_screen. rewrite <- (app_nil_r t) at 1. rewrite screen_shows by exact H. cbn [screen]. apply app_nil_r.
Qed.
Lemma linked_app : forall l a b, linked l (a ++ b) = linked l a ++ linked l b.
Proof. intros. apply map_app. Qed.
Lemma linked_chars : forall l t, map fst (linked l t) = t.
Proof. intros l t. unfold linked. rewrite map_map. cbn [fst]. apply map_id. Qed.
Lemma decimal_escape : forall n, no_escape (decimal n).
Proof.
  intros n H. pose proof (decimal_digits n _ H) as D. revert D. vm_compute. intuition discriminate.
Qed.
Lemma rule_escape : forall r, no_escape (rule_name r).
Proof. intro r. unfold no_escape. destruct r; vm_compute; intuition discriminate. Qed.
Lemma app_escape : forall a b, no_escape a -> no_escape b -> no_escape (a ++ b).
Proof. intros a b A B H. apply in_app_or in H. destruct H; auto. Qed.

Section Line.
Variables (relative : text -> text) (d : printed) (r : rule).
Hypothesis R : p_rule d = rule_name r.
Hypothesis F : no_escape (relative (p_file d)).
Hypothesis M : no_escape (says d).
Lemma position_escape : no_escape (relative (p_file d) ++ lit " [" ++ decimal (p_row d) ++ lit ":" ++ decimal (p_col d + 1) ++ lit "] ").
Proof.
  repeat apply app_escape; auto; try apply decimal_escape; unfold no_escape; vm_compute; intuition discriminate.
Qed.
Lemma concise_linked : on_screen (concise_line relative false d) =
  linked None (relative (p_file d) ++ lit " [" ++ decimal (p_row d) ++ lit ":" ++ decimal (p_col d + 1) ++ lit "] ") ++
  linked (Some (rule_page (p_rule d))) (p_rule d) ++ linked None (lit " " ++ says d).
Proof.
  unfold concise_line, on_screen. rewrite message_says, R.
  assert (E : relative (p_file d) ++ lit " [" ++ decimal (p_row d) ++ lit ":" ++ decimal (p_col d + 1) ++ lit "] " ++
     make_hyperlink (rule_name r) ++ lit " " ++ says d =
     (relative (p_file d) ++ lit " [" ++ decimal (p_row d) ++ lit ":" ++ decimal (p_col d + 1) ++ lit "] ") ++
     make_hyperlink (rule_name r) ++ lit " " ++ says d) by (rewrite <- !app_assoc; reflexivity).
  rewrite E. rewrite screen_shows by exact position_escape. f_equal. rewrite screen_link by apply rule_escape. f_equal.
  apply screen_plain. apply app_escape; [unfold no_escape; vm_compute; intuition discriminate|exact M].
Qed.
Lemma concise_unlinked : on_screen (concise_line relative true d) = linked None (concise_line relative true d).
Proof.
  apply screen_plain. unfold concise_line. rewrite message_says, R. repeat (first [exact M|apply app_escape]); auto; try apply decimal_escape; try apply rule_escape;
    unfold no_escape; vm_compute; intuition discriminate.
Qed.
Lemma concise_same : map fst (on_screen (concise_line relative false d)) = concise_line relative true d.
Proof.
  rewrite concise_linked. rewrite !map_app, !linked_chars. unfold concise_line. rewrite message_says. rewrite <- !app_assoc. reflexivity.
Qed.
End Line.

(** Headers. *)
Lemma header_shape : forall title, header_of title (section_header title).
Proof.
  intro title. unfold section_header. cbv zeta.
  set (n := 57 - _). exists (2 + n). split; [lia|]. rewrite <- !app_assoc. reflexivity.
Qed.
Lemma blen_ascii : forall t, Forall (fun c => (c < 128)%N) t -> blen t = length t.
Proof.
  induction 1 as [|c t H _ IH]; [reflexivity|]. cbn [blen length]. rewrite IH. unfold u8len.
  replace (c <? 128)%N with true by (symmetry; apply N.ltb_lt; exact H). reflexivity.
Qed.
Lemma header_width : forall title, Forall (fun c => (c < 128)%N) title -> length title <= 43 -> length (section_header title) = 49.
Proof.
  intros title A L. unfold section_header. cbv zeta. rewrite app_length, repeat_length.
  rewrite !app_length, !blen_app, (blen_ascii title A).
  change (blen [bar; bar]) with 6. change (blen (lit " ")) with 1. change (length (lit " ")) with 1. change (length [bar; bar]) with 2. unfold text, char in *. lia.
Qed.
