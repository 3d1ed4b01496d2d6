(** A run of jarl with two passes: the example of C86. *)
From Verif Require Import Spec.RPass Spec.RWellFormed Proofs.TextProofs Proofs.FixProofs Proofs.RParse Proofs.RFuel Proofs.RAlike Proofs.WholeProofs Proofs.PassProofs.
From Verif Require Import Proofs.LintSyntax Proofs.LintFixes Proofs.FileRefute.
From Verif Require Import Proofs.LintNested.

Definition ex0 : text := of_lines [lit "any(is.na(x)) + any(is.na(y))"; lit "z <- any(is.na(w))"].
Definition ex1 : text := of_lines [lit "anyNA(x) + any(is.na(y))"; lit "z <- anyNA(w)"].
Definition ex2 : text := of_lines [lit "anyNA(x) + anyNA(y)"; lit "z <- anyNA(w)"].
Definition na_old (n : text) : expr := ECall (EAtom (AId (lit "any"))) [(None, Some (ECall (EAtom (AId (lit "is.na"))) [(None, Some (EAtom (AId n)))]))].
Definition na_new (n : text) : expr := ECall (EAtom (AId (lit "anyNA"))) [(None, Some (EAtom (AId n)))].
Lemma na_edit : forall t A B C p j fs n w sk, reads_text t p -> t = A ++ B ++ C -> written t j fs (na_old n) (blen A) (blen (A ++ B)) ->
  text_tokens w (toks (na_new n)) -> breaks_enclosed w -> starts_well A B w -> ends_well w C -> assigned fs = false -> pipe_target fs = false ->
  exists ed, e_fix ed = mk_fix w (blen A) (blen (A ++ B)) sk /\ edit_ok (fun _ => True) t ed.
Proof.
  intros t A B C p j fs n w sk Rd Et W Tw Be Sw Ew HA HP. exists (mk_edit j fs (na_old n) (na_new n) (mk_fix w (blen A) (blen (A ++ B)) sk)).
  split; [reflexivity|]. split; [exact W|]. split; [exact Tw|]. split; [exact Be|]. split; [exists A, B, C; auto|].
  destruct (written_tokens _ _ _ _ _ _ _ Rd W) as (_ & _ & _ & _ & _ & N & _). pose proof (node_here _ _ _ _ _ Rd N) as Nd.
  assert (F : any_is_na fs (na_old n) = Some (mk_report fs (na_old n) (Some (toks (na_new n))))) by reflexivity.
  pose proof (any_is_na_harmless (place_in p j fs) (na_old n) _ (EAtom (AId n)) fs (na_old n) Nd F) as G.
  apply (replaceable_as _ (mk_report fs (na_old n) (Some (toks (na_new n)))) (na_new n) (place_in p j fs)); try reflexivity; [|cbn; repeat split; auto; try discriminate; try (unfold arg_level; lia)|exact Nd].
  eapply both_replaceable, G; [apply nested_plain; reflexivity|exact HA|exact HP].
Qed.
Ltac na_here t0 q0 R0 j0 A0 B0 C0 f0 n0 w0 :=
  let ed := fresh in let E := fresh in let O := fresh in
  destruct (na_edit t0 A0 B0 C0 q0 j0 f0 n0 w0 false R0) as (ed & E & O);
  [vm_compute; reflexivity|apply is_written; vm_compute; auto 8|eexists; split; vm_compute; reflexivity|eexists; split; vm_compute; reflexivity
  |eexists _, _; split; [vm_compute; reflexivity|]; split; [reflexivity|]; left; eexists _, _; split; [vm_compute; reflexivity|]; right; split; reflexivity
  |exists [(RWord, lit "anyNA"); (ROp, lit "("); (RWord, n0)], ROp, (lit ")"); split; [vm_compute; reflexivity|]; right; left; split; [reflexivity|left; reflexivity]
  |reflexivity|reflexivity|exists ed; split; [rewrite E; vm_compute; reflexivity|exact O]].
Definition c_na : config := Eval vm_compute in
  match build_config (fix_args (lit "any_is_na")) None [] with ROk c => c | _ => c0 end.
Lemma run_na : forall c o, run_with (lit "any_is_na") c o -> c = c_na /\ o = o0.
Proof.
  intros c o [B O]. assert (Q : build_config (fix_args (lit "any_is_na")) None [] = ROk c_na) by (vm_compute; reflexivity).
  assert (R : resolve_options None None None None None None = ROk o0) by (vm_compute; reflexivity).
  rewrite Q in B. rewrite R in O. injection B as <-. injection O as <-. auto.
Qed.
Definition fixes0 : list rfix := [mk_fix (lit "anyNA(x)") 0 13 false; mk_fix (lit "anyNA(y)") 16 29 false; mk_fix (lit "anyNA(w)") 35 48 false].
Definition fixes1 : list rfix := [mk_fix (lit "anyNA(y)") 11 24 false].
Lemma lint0 : forall u, exists ds, get_checks c_na o0 u ex0 = Some ds /\ map d_fix ds = fixes0.
Proof. intros u. eexists. split; [vm_compute; reflexivity|vm_compute; reflexivity]. Qed.
Lemma lint1 : forall u, exists ds, get_checks c_na o0 u ex1 = Some ds /\ map d_fix ds = fixes1.
Proof. intros u. eexists. split; [vm_compute; reflexivity|vm_compute; reflexivity]. Qed.
Lemma lint2 : forall u, get_checks c_na o0 u ex2 = Some [].
Proof. intros u. vm_compute. reflexivity. Qed.
Lemma apply0 : apply_fixes fixes0 ex0 = Some (true, ex1).
Proof. vm_compute. reflexivity. Qed.
Lemma apply1 : apply_fixes fixes1 ex1 = Some (false, ex2).
Proof. vm_compute. reflexivity. Qed.
Lemma apply2 : apply_fixes [] ex2 = Some (false, ex2).
Proof. reflexivity. Qed.
Lemma good0 : good_fixes (fun _ => True) ex0 fixes0.
Proof.
  assert (Rd : readable ex0) by reading. destruct Rd as [q Rd].
  split; [repeat constructor; vm_compute; lia|]. split.
  - repeat (constructor; [apply ascii_neutral; vm_compute; reflexivity|]). constructor.
  - constructor; [|constructor; [|constructor; [|constructor]]].
    + na_here ex0 q Rd 0 (lit "") (lit "any(is.na(x))") (lit " + any(is.na(y))" ++ [10%N] ++ lit "z <- any(is.na(w))" ++ [10%N]) [FBinL BAdd false (na_old (lit "y"))] (lit "x") (lit "anyNA(x)").
    + na_here ex0 q Rd 0 (lit "any(is.na(x)) + ") (lit "any(is.na(y))") ([10%N] ++ lit "z <- any(is.na(w))" ++ [10%N]) [FBinR BAdd false (na_old (lit "x"))] (lit "y") (lit "anyNA(y)").
    + na_here ex0 q Rd 1 (lit "any(is.na(x)) + any(is.na(y))" ++ [10%N] ++ lit "z <- ") (lit "any(is.na(w))") [10%N] [FBinR (BAssign (lit "<-")) false (EAtom (AId (lit "z")))] (lit "w") (lit "anyNA(w)").
Qed.
Lemma good1 : good_fixes (fun _ => True) ex1 fixes1.
Proof.
  assert (Rd : readable ex1) by reading. destruct Rd as [q Rd].
  split; [repeat constructor|]. split.
  - repeat (constructor; [apply ascii_neutral; vm_compute; reflexivity|]). constructor.
  - constructor; [|constructor].
    na_here ex1 q Rd 0 (lit "anyNA(x) + ") (lit "any(is.na(y))") ([10%N] ++ lit "z <- anyNA(w)" ++ [10%N]) [FBinR BAdd false (na_new (lit "x"))] (lit "y") (lit "anyNA(y)").
Qed.
Lemma good2 : good_fixes (fun _ => True) ex2 [].
Proof. repeat split; constructor. Qed.
Lemma good_run : forall (lint : path -> text -> option (list diag)) p ds0 ds1, lint p ex0 = Some ds0 -> map d_fix ds0 = fixes0 ->
  lint p ex1 = Some ds1 -> map d_fix ds1 = fixes1 -> lint p ex2 = Some [] ->
  forall d ds, visited lint p ex0 d -> lint p d = Some ds -> good_fixes (fun _ => True) d (map d_fix ds).
Proof.
  intros lint p ds0 ds1 L0 E0 L1 E1 L2.
  assert (V : forall d, visited lint p ex0 d -> d = ex0 \/ d = ex1 \/ d = ex2).
  { intros d V. induction V as [|d sk d' V IH (ds & L & A)]; [left; reflexivity|]. destruct IH as [ -> | [ -> | -> ] ].
    - rewrite L0 in L. injection L as <-. rewrite E0, apply0 in A. injection A as _ <-. right; left. reflexivity.
    - rewrite L1 in L. injection L as <-. rewrite E1, apply1 in A. injection A as _ <-. right; right. reflexivity.
    - rewrite L2 in L. injection L as <-. cbn [map] in A. rewrite apply2 in A. injection A as _ <-. right; right. reflexivity. }
  intros d ds Vd L. destruct (V d Vd) as [ -> | [ -> | -> ] ].
  - rewrite L0 in L. injection L as <-. rewrite E0. exact good0.
  - rewrite L1 in L. injection L as <-. rewrite E1. exact good1.
  - rewrite L2 in L. injection L as <-. exact good2.
Qed.
