(** C103: a file is read, fixed and reported under a name that designates it. *)
From Verif Require Import Model.Text Model.Base Model.Cli Model.Paths Spec.PathSpec Proofs.PathProofs.

(** A file given on the command line. *)
Theorem C103_given_file_partial : forall root cwd t e,
  working_directory root cwd -> is_file root e -> no_up_after_link root cwd t ->
  designates_place root cwd t e ->
  designates_place root cwd (relativize_path cwd (absolute_text (normalize_path cwd t))) e.
Proof.
  intros root cwd t e (D & C) F U H.
  apply shown_designates; auto; apply Forall_forall; intros c I; now apply C.
Qed.
Print Assumptions C103_given_file_partial.

(** A file found by the walk in a directory given on the command line: the walk adds the names of
    directory entries to the path of the directory. *)
Theorem C103_walked_file_partial : forall root cwd t ns e,
  working_directory root cwd -> is_file root e -> t <> [] -> ns <> [] -> clean ns -> no_up_after_link root cwd t ->
  designates_place root cwd (t ++ lit "/" ++ slashed ns) e ->
  designates_place root cwd (relativize_path cwd (absolute_text (normalize_path cwd t ++ ns))) e.
Proof.
  intros root cwd t ns e (D & C) F T M K U H.
  assert (P : Forall proper ns) by (apply Forall_forall; intros c I; now apply K).
  assert (Sn : Forall no_slash ns) by (apply Forall_forall; intros c I; now apply K).
  rewrite <- normalize_below by auto.
  apply shown_designates; auto; try (apply Forall_forall; intros c I; now apply C). now apply up_below.
Qed.
Print Assumptions C103_walked_file_partial.

(** Two files are never reported under the same name. *)
Theorem C103_names_differ : forall cwd p q, clean p -> clean q -> p <> cwd -> q <> cwd -> p <> q ->
  relativize_path cwd (absolute_text p) <> relativize_path cwd (absolute_text q).
Proof.
  intros cwd p q P Q Np Nq N E. apply N. apply (shown_distinct cwd); auto; apply Forall_forall; intros c I; first [now apply P | now apply Q].
Qed.
Print Assumptions C103_names_differ.

(** Files below the working directory are shown by what follows it, the others by their absolute path;
    doing it twice (for the diagnostics, then for the output) changes nothing. *)
Theorem C103_shown : forall cwd p, clean p -> clean cwd ->
  let shown := relativize_path cwd (absolute_text p) in
  (forall r, p = cwd ++ r -> shown = slashed r) /\
  ((forall r, p <> cwd ++ r) -> shown = lit "/" ++ slashed p) /\
  relativize_path cwd shown = shown.
Proof.
  intros cwd p P C shown.
  assert (Pp : Forall proper p) by (apply Forall_forall; intros c I; now apply P).
  assert (Sp : Forall no_slash p) by (apply Forall_forall; intros c I; now apply P).
  split; [|split].
  - intros r E. unfold shown. rewrite shown_eq by auto. now rewrite (proj2 (relative_some cwd p r) E).
  - intros N. unfold shown. rewrite shown_eq by auto. destruct (relative cwd p) as [r|] eqn:R; [|reflexivity].
    apply relative_some in R. now apply N in R.
  - apply shown_twice; auto. apply Forall_forall; intros c I; now apply C.
Qed.
Print Assumptions C103_shown.

(** Without the condition on links: [link/../x.R] is read as [x.R], which is another file (or none) when
    [link] leads elsewhere. *)
Definition ex_tree : node :=
  NDir [(lit "w", NDir [(lit "x.R", NFile (lit "1")); (lit "l", NLink [[]; lit "o"; lit "d"]); (lit "s", NDir [(lit "y.R", NFile [])])]);
        (lit "o", NDir [(lit "d", NDir []); (lit "x.R", NFile (lit "2"))])].
Theorem C103_link_refuted : exists root cwd t e,
  working_directory root cwd /\ is_file root e /\ designates_place root cwd t e /\
  let shown := relativize_path cwd (absolute_text (normalize_path cwd t)) in
  exists e', designates_place root cwd shown e' /\ is_file root e' /\ stored root e <> stored root e'.
Proof.
  assert (Pl : proper (lit "l")) by (repeat split; discriminate).
  assert (Pw : proper (lit "w")) by (repeat split; discriminate).
  assert (Po : proper (lit "o")) by (repeat split; discriminate).
  assert (Pd : proper (lit "d")) by (repeat split; discriminate).
  assert (Px : proper (lit "x.R")) by (repeat split; discriminate).
  exists ex_tree, [lit "w"], (lit "l/../x.R"), [lit "o"; lit "x.R"].
  split; [split; [eexists; vm_compute; reflexivity|]|].
  { intros c [<-|[]]. split; auto. intros H. cbn in H. intuition discriminate. }
  split; [eexists; vm_compute; reflexivity|]. split; [|].
  - exists [lit "l"; lit ".."; lit "x.R"]. split.
    + split; [reflexivity|]. split; [discriminate|]. intros c H. cbn in H.
      destruct H as [<-|[<-|[<-|[]]]]; cbn; intuition discriminate.
    + cbn [start]. eapply leads_link; [exact Pl|vm_compute; reflexivity|]. cbn [start app].
      apply leads_stay; [eexists; vm_compute; reflexivity|now left|].
      eapply leads_name; [exact Po|vm_compute; reflexivity|discriminate|].
      eapply leads_name; [exact Pd|vm_compute; reflexivity|discriminate|].
      apply leads_up; [eexists; vm_compute; reflexivity|].
      eapply leads_name; [exact Px|vm_compute; reflexivity|discriminate|].
      exact (leads_end _ _).
  - exists [lit "w"; lit "x.R"]. split; [|split; [eexists; vm_compute; reflexivity|vm_compute; discriminate]].
    exists [lit "x.R"]. split.
    + split; [vm_compute; reflexivity|]. split; [discriminate|]. intros c [<-|[]]; cbn; intuition discriminate.
    + cbn [start]. eapply leads_name; [exact Px|vm_compute; reflexivity|discriminate|]. exact (leads_end _ _).
Qed.
Print Assumptions C103_link_refuted.

(** The hypotheses of C103_given_file_partial hold for [../w/./s/../x.R], read in [/w]. *)
Example C103_hypotheses_met :
  working_directory ex_tree [lit "w"] /\ is_file ex_tree [lit "w"; lit "x.R"] /\
  no_up_after_link ex_tree [lit "w"] (lit "../w/./s/../x.R") /\
  designates_place ex_tree [lit "w"] (lit "../w/./s/../x.R") [lit "w"; lit "x.R"] /\
  relativize_path [lit "w"] (absolute_text (normalize_path [lit "w"] (lit "../w/./s/../x.R"))) = lit "x.R" /\
  relativize_path [lit "w"; lit "s"] (absolute_text (normalize_path [lit "w"; lit "s"] (lit "..//x.R"))) = lit "/w/x.R".
Proof.
  assert (Pw : proper (lit "w")) by (repeat split; discriminate).
  assert (Ps : proper (lit "s")) by (repeat split; discriminate).
  assert (Px : proper (lit "x.R")) by (repeat split; discriminate).
  assert (Hp : parts (lit "../w/./s/../x.R") [lit ".."; lit "w"; lit "."; lit "s"; lit ".."; lit "x.R"]).
  { split; [reflexivity|]. split; [discriminate|]. intros c H. cbn in H.
    destruct H as [<-|[<-|[<-|[<-|[<-|[<-|[]]]]]]]; cbn; intuition discriminate. }
  split; [split; [eexists; vm_compute; reflexivity|]|].
  { intros c [<-|[]]. split; auto. intros H. cbn in H. intuition discriminate. }
  split; [eexists; vm_compute; reflexivity|]. split; [|split; [|split; vm_compute; reflexivity]].
  - intros l b a Hl E. rewrite <- (parts_split _ _ Hl), (parts_split _ _ Hp) in *. clear Hl.
    destruct b as [|c0 b]; [eexists; cbn [start]; constructor|].
    injection E as <- E. destruct b as [|c1 b]; [discriminate|]. injection E as <- E.
    destruct b as [|c2 b]; [discriminate|]. injection E as <- E. destruct b as [|c3 b]; [discriminate|]. injection E as <- E.
    destruct b as [|c4 b].
    + eexists. cbn [start]. apply plainly_up; [eexists; vm_compute; reflexivity|].
      eapply plainly_name; [exact Pw|vm_compute; reflexivity|discriminate|].
      apply plainly_stay; [eexists; vm_compute; reflexivity|now right|].
      eapply plainly_name; [exact Ps|vm_compute; reflexivity|discriminate|]. constructor.
    + exfalso. injection E as <- E. destruct b as [|c5 b]; [discriminate|]. injection E as <- E. destruct b; discriminate.
  - exists [lit ".."; lit "w"; lit "."; lit "s"; lit ".."; lit "x.R"]. split; [exact Hp|]. cbn [start].
    apply leads_up; [eexists; vm_compute; reflexivity|].
    eapply leads_name; [exact Pw|vm_compute; reflexivity|discriminate|].
    apply leads_stay; [eexists; vm_compute; reflexivity|now right|].
    eapply leads_name; [exact Ps|vm_compute; reflexivity|discriminate|].
    apply leads_up; [eexists; vm_compute; reflexivity|].
    eapply leads_name; [exact Px|vm_compute; reflexivity|discriminate|]. exact (leads_end _ _).
Qed.
