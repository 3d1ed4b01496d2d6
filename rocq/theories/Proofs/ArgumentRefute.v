(** Calls whose arguments are not read as R reads them. *)
From Verif Require Import Spec.RArguments Spec.RDemo Proofs.LintRefute Proofs.RArgumentsProofs.

Definition str (t : text) : expr := EAtom (AStr t).
Ltac plain_call :=
  split; [cbn; repeat constructor; cbn; intuition discriminate|
    intros m H; cbn in H; repeat (destruct H as [ <- |H]; [left; cbn; tauto|]); destruct H].
Ltac taken v := eapply left_taken with (a := v); [split; [cbn; tauto|left; reflexivity]|].
Ltac free P := apply left_free; [refine (proj2 (plain_free _ _ _ P _) _); [cbn; tauto|reflexivity]|].

Lemma download_misread : exists args r,
  plain_names download_formals args /\ r_arg download_formals args (lit "mode") (pos (str (lit """wb"""))) /\
  check_file everything_on [call (lit "download.file") args] = ROk [(0, (lit "download_file", r))].
Proof.
  exists [pos (var (lit "u")); pos (var (lit "d")); named (lit "method") (str (lit """libcurl""")); pos (EAtom ATrue); pos (str (lit """wb"""))].
  set (args := [_; _; _; _; _]). eexists.
  assert (plain_names download_formals args) as P by plain_call.
  split; [exact P|]. split; [|vm_compute; reflexivity].
  apply r_unnamed with (before := [lit "url"; lit "destfile"; lit "method"; lit "quiet"]) (after := [lit "cacheOK"; lit "extra"; lit "headers"]) (k := 3);
    [reflexivity| | |reflexivity].
  - refine (proj2 (plain_free _ _ _ P _) _); [cbn; tauto|reflexivity].
  - free P. free P. taken (named (lit "method") (str (lit """libcurl"""))). free P. constructor.
Qed.
Lemma sub_misread : exists args r,
  plain_names sub_formals args /\ r_arg sub_formals args (lit "ignore.case") (pos (EAtom ATrue)) /\
  check_file everything_on [call (lit "gsub") args] = ROk [(0, (lit "fixed_regex", r))].
Proof.
  exists [named (lit "pattern") (str (lit """a""")); pos (str (lit """b""")); pos (var (lit "x")); pos (EAtom ATrue)].
  set (args := [_; _; _; _]). eexists.
  assert (plain_names sub_formals args) as P by plain_call.
  split; [exact P|]. split; [|vm_compute; reflexivity].
  apply r_unnamed with (before := [lit "pattern"; lit "replacement"; lit "x"]) (after := [lit "perl"; lit "fixed"; lit "useBytes"]) (k := 2);
    [reflexivity| | |reflexivity].
  - refine (proj2 (plain_free _ _ _ P _) _); [cbn; tauto|reflexivity].
  - taken (named (lit "pattern") (str (lit """a"""))). free P. free P. constructor.
Qed.
Lemma ifelse_missed : exists args,
  plain_names [lit "test"; lit "yes"; lit "no"] args /\ length args = 3 /\
  r_arg [lit "test"; lit "yes"; lit "no"] args (lit "yes") (pos (EAtom ATrue)) /\
  r_arg [lit "test"; lit "yes"; lit "no"] args (lit "no") (pos (EAtom AFalse)) /\
  check_file everything_on [call (lit "ifelse") args] = ROk [].
Proof.
  exists [named (lit "test") (var (lit "x")); pos (EAtom ATrue); pos (EAtom AFalse)].
  set (args := [named _ _; _; _]).
  assert (plain_names [lit "test"; lit "yes"; lit "no"] args) as P by plain_call.
  split; [exact P|]. split; [reflexivity|]. split; [|split; [|vm_compute; reflexivity]].
  - apply r_unnamed with (before := [lit "test"]) (after := [lit "no"]) (k := 0); [reflexivity| | |reflexivity].
    + refine (proj2 (plain_free _ _ _ P _) _); [cbn; tauto|reflexivity].
    + taken (named (lit "test") (var (lit "x"))). constructor.
  - apply r_unnamed with (before := [lit "test"; lit "yes"]) (after := []) (k := 1); [reflexivity| | |reflexivity].
    + refine (proj2 (plain_free _ _ _ P _) _); [cbn; tauto|reflexivity].
    + taken (named (lit "test") (var (lit "x"))). free P. constructor.
Qed.
(** [grepl("a", x, fix = TRUE)] is already fixed. *)
Lemma partial_name_misread : exists args r,
  r_arg grepl_formals args (lit "fixed") (named (lit "fix") (EAtom ATrue)) /\
  check_file everything_on [call (lit "grepl") args] = ROk [(0, (lit "fixed_regex", r))].
Proof.
  exists [pos (str (lit """a""")); pos (var (lit "x")); named (lit "fix") (EAtom ATrue)]. eexists.
  split; [|vm_compute; reflexivity]. apply r_named; [cbn; tauto|]. split; [cbn; tauto|]. right. split.
  - intros v H. cbn in H. repeat (destruct H as [H|H]; [discriminate (f_equal fst H)|]). destruct H.
  - exists (lit "fix"), (lit "ed"). split; [reflexivity|]. split; [|reflexivity]. cbn. intuition discriminate.
Qed.
(** [sample(size = 3, 1:10)] becomes [sample.int(10, 1:10)]. *)
Lemma sample_misread : exists args r,
  r_arg [lit "x"; lit "size"; lit "replace"; lit "prob"] args (lit "size") (named (lit "size") (EAtom (ANum (lit "3")))) /\
  check_file everything_on [call (lit "sample") args] = ROk [(0, (lit "sample_int", r))] /\
  new_text r = Some (toks (call (lit "sample.int") [pos (EAtom (ANum (lit "10"))); pos (EBin BColon false (EAtom (ANum (lit "1"))) (EAtom (ANum (lit "10"))))])).
Proof.
  exists [named (lit "size") (EAtom (ANum (lit "3"))); pos (EBin BColon false (EAtom (ANum (lit "1"))) (EAtom (ANum (lit "10"))))]. eexists.
  split; [|split; vm_compute; reflexivity]. apply r_named; [cbn; tauto|]. split; [cbn; tauto|left; reflexivity].
Qed.
