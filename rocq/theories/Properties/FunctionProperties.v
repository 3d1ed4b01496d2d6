(** C97: the fixes of [sort], [which_grepl], [length_levels], [seq], [seq2], [class_equals] and [lengths]
    keep the behaviour of the program, given what the base R functions they name do
    (Spec/RFunctions.v). *)
From Verif Require Import Spec.RGrammar Spec.RPosition Spec.RSemantics Spec.RFix Spec.RFunctions Spec.RLibrary.
From Verif Require Import Proofs.LintRefute Proofs.FunctionProofs Proofs.LibraryProofs.

(** [x[order(x)]] becomes [sort(x)]: the same for a vector without missing values. *)
Theorem C97_sort_partial : forall p e r f x,
  node_of_file p e -> sort_rule (frames p) e = Some r ->
  e = ESub false x [(None, Some (ECall f [(None, Some x)]))] -> fname f = Some (lit "order") ->
  assigned (frames p) = false -> pipe_target (frames p) = false ->
  fix_harmless (fun I => knows_sort I /\ pure I x /\ yields I x (complete I)) p e r.
Proof. exact sort_harmless. Qed.
Print Assumptions C97_sort_partial.

(** It drops the missing values of a vector that has some. *)
Theorem C97_sort_refuted : exists p e r,
  node_of_file p e /\ sort_rule (frames p) e = Some r /\ frames p = [] /\
  ~ fix_harmless (fun I => knows_sort I /\ pure I (EAtom (AId (lit "x"))) /\
      yields I (EAtom (AId (lit "x"))) (fun v => exists l, v = VNum l)) p e r.
Proof. exact sort_missing. Qed.
Print Assumptions C97_sort_refuted.

(** [which(grepl(a, b))] becomes [grep(a, b)]. *)
Theorem C97_which_grepl_partial : forall p e r f g a b,
  node_of_file p e -> which_grepl (frames p) e = Some r ->
  e = ECall f [(None, Some (ECall g [(None, Some a); (None, Some b)]))] ->
  fname f = Some (lit "which") -> fname g = Some (lit "grepl") ->
  assigned (frames p) = false -> pipe_target (frames p) = false ->
  fix_harmless (fun I => knows_grep I /\ yields I a (one_string I) /\ yields I b (strings I)) p e r.
Proof. exact which_grepl_harmless. Qed.
Print Assumptions C97_which_grepl_partial.

(** [length(levels(x))], or the same with pipes, becomes [nlevels(x)]. *)
Theorem C97_length_levels_partial : forall p e r x fs' e',
  node_of_file p e -> length_levels (frames p) e = Some r ->
  nested_form (lit "length") (lit "levels") (frames p) e fs' e' x ->
  assigned fs' = false -> pipe_target fs' = false ->
  fix_harmless knows_levels p e r.
Proof. exact length_levels_harmless. Qed.
Print Assumptions C97_length_levels_partial.

(** [1:length(x)] becomes [seq_along(x)], and [1:nrow(x)] becomes [seq_len(nrow(x))]: the same when the
    size is not zero. *)
Theorem C97_seq_partial : forall p e r nl l f n x,
  node_of_file p e -> seq_rule (frames p) e = Some r ->
  e = EBin BColon nl l (ECall f [(None, Some x)]) -> fname f = Some n ->
  assigned (frames p) = false -> pipe_target (frames p) = false ->
  fix_harmless (fun I => exists size, knows_seq I size /\ yields I x (fun v => 0 < size n v)) p e r.
Proof. exact seq_harmless. Qed.
Print Assumptions C97_seq_partial.

(** The same for [seq(length(x))]. *)
Theorem C97_seq2_partial : forall p e r f g n x,
  node_of_file p e -> seq2_rule (frames p) e = Some r ->
  e = ECall f [(None, Some (ECall g [(None, Some x)]))] -> fname f = Some (lit "seq") -> fname g = Some n ->
  assigned (frames p) = false -> pipe_target (frames p) = false ->
  fix_harmless (fun I => exists size, knows_seq I size /\ yields I x (fun v => 0 < size n v)) p e r.
Proof. exact seq2_harmless. Qed.
Print Assumptions C97_seq2_partial.

(** Both change the program when the size is zero (which is the point of the two rules). *)
Theorem C97_seq_refuted :
  (exists p e r, node_of_file p e /\ seq_rule (frames p) e = Some r /\ frames p = [] /\
     ~ fix_harmless (fun I => exists size, knows_seq I size) p e r) /\
  (exists p e r, node_of_file p e /\ seq2_rule (frames p) e = Some r /\ frames p = [] /\
     ~ fix_harmless (fun I => exists size, knows_seq I size) p e r).
Proof. exact (conj seq_empty seq2_empty). Qed.
Print Assumptions C97_seq_refuted.

(** [class(x) == "t"] becomes [inherits(x, "t")], and [class(x) != "t"] becomes [!inherits(x, "t")]: the
    same for an object with one class, and always for ["t" %in% class(x)]. *)
Theorem C97_class_equals_partial : forall p e r o nl l rr f x t,
  node_of_file p e -> class_equals (frames p) e = Some r ->
  e = EBin o nl l rr -> class_and_string l rr f x t -> fname f = Some (lit "class") ->
  assigned (frames p) = false -> pipe_target (frames p) = false ->
  fix_harmless (fun I => exists cls, knows_class I cls /\
    (o = BSpecial (lit "%in%") /\ l = EAtom (AStr t) \/ yields I x (fun v => length (cls v) = 1))) p e r.
Proof. exact class_equals_harmless. Qed.
Print Assumptions C97_class_equals_partial.

Theorem C97_class_equals_refuted : exists p e r,
  node_of_file p e /\ class_equals (frames p) e = Some r /\
  ~ fix_harmless (fun I => exists cls, knows_class I cls) p e r.
Proof. exact class_two. Qed.
Print Assumptions C97_class_equals_refuted.

(** [sapply(x, length)] becomes [lengths(x)]: the same unless there is nothing to apply it to. *)
Theorem C97_lengths_partial : forall p e r f x,
  node_of_file p e -> lengths_rule (frames p) e = ROk (Some r) ->
  e = ECall f [(None, Some x); (None, Some (EAtom (AId (lit "length"))))] -> fname f = Some (lit "sapply") ->
  assigned (frames p) = false -> pipe_target (frames p) = false ->
  fix_harmless (fun I => exists lens, knows_lengths I lens /\ yields I x (fun v => lens v <> [])) p e r.
Proof. exact lengths_harmless. Qed.
Print Assumptions C97_lengths_partial.

Theorem C97_lengths_refuted : exists p e r,
  node_of_file p e /\ lengths_rule (frames p) e = ROk (Some r) /\ frames p = [] /\
  ~ fix_harmless (fun I => exists lens, knows_lengths I lens) p e r.
Proof. exact lengths_empty. Qed.
Print Assumptions C97_lengths_refuted.

(** One R meets all the requirements on functions, with a vector [x] that is complete and not empty. *)
Example C97_requirements_met : exists I, knows_sort I /\ knows_grep I /\ knows_levels I /\
  (exists size, knows_seq I size /\ yields I (EAtom (AId (lit "x"))) (fun v => 0 < size (lit "nrow") v)) /\
  (exists cls, knows_class I cls /\ yields I (EAtom (AId (lit "x"))) (fun v => length (cls v) = 1)) /\
  (exists lens, knows_lengths I lens /\ yields I (EAtom (AId (lit "x"))) (fun v => lens v <> [])) /\
  pure I (EAtom (AId (lit "x"))) /\ yields I (EAtom (AId (lit "x"))) (complete I).
Proof.
  pose (v := VNum [Some 3%Z; Some 1%Z; Some 2%Z] : dval).
  exists (library (env_of [(lit "x", v)])). pose proof (free_x v) as F.
  split; [apply library_sort, F|]. split; [apply library_grep, F|]. split; [apply library_levels, F|].
  split; [exists lib_size; split; [apply library_seq, F|apply yields_x; cbn; lia]|].
  split; [exists lib_class; split; [apply library_class, F|apply yields_x; reflexivity]|].
  split; [exists lib_lens; split; [apply library_lengths, F|apply yields_x; discriminate]|].
  split; [apply pure_x|]. apply yields_x. left. eexists. split; [reflexivity|].
  repeat constructor; discriminate.
Qed.

(** [y <- x[order(x)]], [y <- which(grepl("a", b))], [y <- x |> levels() |> length()], [y <- 1:nrow(x)],
    [y <- seq(length(x))], [if (class(x) != "b") y], [y <- sapply(x, length)] meet the hypotheses. *)
Example C97_hypotheses_met :
  let x := var (lit "x") in let fs := [FBinR (BAssign (lit "<-")) false (var (lit "y"))] in
  let p := here fs in
  let e1 := ESub false x [(None, Some (call1 (lit "order") x))] in
  let e2 := call1 (lit "which") (ECall (var (lit "grepl")) [(None, Some (EAtom (AStr (lit "a")))); (None, Some (var (lit "b")))]) in
  let l3 := EBin BPipe false x (ECall (var (lit "levels")) []) in
  let p3 := here (FBinR BPipe false l3 :: fs) in let e3 := ECall (var (lit "length")) [] in
  let e4 := EBin BColon false (EAtom (ANum (lit "1"))) (call1 (lit "nrow") x) in
  let e5 := call1 (lit "seq") (call1 (lit "length") x) in
  let p6 := here [FIfC (var (lit "y")) None] in
  let e6 := EBin (BCmp CNe) false (call1 (lit "class") x) (EAtom (AStr (lit "b"))) in
  let e7 := ECall (var (lit "sapply")) [(None, Some x); (None, Some (var (lit "length")))] in
  assigned fs = false /\ pipe_target fs = false /\
  node_of_file p e1 /\ (exists r, sort_rule (frames p) e1 = Some r) /\
  node_of_file p e2 /\ (exists r, which_grepl (frames p) e2 = Some r) /\
  node_of_file p3 e3 /\ (exists r, length_levels (frames p3) e3 = Some r) /\
  nested_form (lit "length") (lit "levels") (frames p3) e3 fs (EBin BPipe false l3 e3) x /\
  node_of_file p e4 /\ (exists r, seq_rule (frames p) e4 = Some r) /\
  node_of_file p e5 /\ (exists r, seq2_rule (frames p) e5 = Some r) /\
  node_of_file p6 e6 /\ (exists r, class_equals (frames p6) e6 = Some r) /\
  assigned (frames p6) = false /\ pipe_target (frames p6) = false /\
  node_of_file p e7 /\ (exists r, lengths_rule (frames p) e7 = ROk (Some r)).
Proof.
  cbn zeta. split; [reflexivity|]. split; [reflexivity|].
  split; [read_it 30|]. split; [eexists; vm_compute; reflexivity|].
  split; [read_it 30|]. split; [eexists; vm_compute; reflexivity|].
  split; [read_it 30|]. split; [eexists; vm_compute; reflexivity|].
  split; [apply nested_pipes; reflexivity|].
  split; [read_it 30|]. split; [eexists; vm_compute; reflexivity|].
  split; [read_it 30|]. split; [eexists; vm_compute; reflexivity|].
  split; [read_it 30|]. split; [eexists; vm_compute; reflexivity|].
  do 2 (split; [reflexivity|]).
  split; [read_it 30|]. eexists; vm_compute; reflexivity.
Qed.
