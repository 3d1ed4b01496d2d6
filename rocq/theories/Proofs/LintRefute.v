(** Files that a fix changes. *)
From Verif Require Import Spec.RDemo Proofs.RParse Proofs.RContext.

Lemma not_harmless_run : forall (P : interp -> Prop) old new p q n I s,
  pprog n old = POk p [] -> pprog n new = POk q [] -> P I ->
  run I p s <> run I q s -> ~ harmless P old new.
Proof.
  intros P old new p q n I s Hp Hq HP Hne (p' & q' & Hp' & Hq' & H). apply Hne.
  rewrite (reads_det old p p'), (reads_det new q q'); eauto; eexists; eassumption.
Qed.
Lemma not_harmless_syntax : forall (P : interp -> Prop) old new n,
  pprog n new = PErr -> ~ harmless P old new.
Proof.
  intros P old new n He (p' & q' & Hp' & Hq' & H). apply (reads_no_error new q'); [assumption|].
  exists n. exact He.
Qed.
Lemma not_fix_harmless : forall (P : interp -> Prop) p e r c,
  new_text r = Some c -> ~ harmless P (edited p (toks e)) (edited (fix_place p r) c) ->
  ~ fix_harmless P p e r.
Proof. intros P p e r c Hc H Hf. exact (H (Hf c Hc)). Qed.

(** The value of the variables in the demo. *)
Definition env_of (l : list (text * dval)) (x : text) : option dval :=
  option_map snd (find (fun a => teqb (fst a) x) l).

Lemma yields_var : forall l x v (K : dval -> Prop), env_of l x = Some v -> K v -> yields (demo (env_of l)) (EAtom (AId x)) K.
Proof.
  intros l x v K He HK s w s' H. cbn in H. rewrite He in H. injection H as <- <-. exact HK.
Qed.

(** A file with one statement. *)
Definition here (fs : list frame) : place := mk_place [] fs [].
Definition var (x : text) : expr := EAtom (AId x).
Definition call1 (f : text) (x : expr) : expr := ECall (EAtom (AId f)) [(None, Some x)].
Definition nm (l : list Z) : dval := VNum (map Some l).

Ltac read_it n := exists n; vm_compute; reflexivity.
Ltac by_run n I s :=
  eapply not_fix_harmless; [vm_compute; reflexivity|];
  eapply (not_harmless_run _ _ _ _ _ n I s); [vm_compute; reflexivity|vm_compute; reflexivity| |vm_compute; discriminate].
Ltac by_syntax n :=
  eapply not_fix_harmless; [vm_compute; reflexivity|];
  eapply (not_harmless_syntax _ _ _ n); vm_compute; reflexivity.
Ltac vars :=
  let x := fresh "x" in intros x Hx;
  repeat (destruct Hx as [<-|Hx]; [eapply yields_var; [vm_compute; reflexivity|eexists; reflexivity]|]);
  destruct Hx.

(** [a + !(x > y)] becomes [a + x <= y]. *)
Lemma comparison_negation_sum : exists p e r,
  node_of_file p e /\ comparison_negation (frames p) e = Some r /\
  ~ fix_harmless (numbers [lit "a"; lit "x"; lit "y"]) p e r.
Proof.
  exists (here [FBinR BAdd false (var (lit "a"))]),
         (EUn UNot (EParen (EBin (BCmp CGt) false (var (lit "x")) (var (lit "y"))))).
  eexists. split; [read_it 30|]. split; [reflexivity|].
  by_run 30 (demo (env_of [(lit "a", nm [2%Z]); (lit "x", nm [1%Z]); (lit "y", nm [1%Z])])) 0%Z.
  vars.
Qed.
(** [a == !(x > y)] becomes [a == x <= y], which R cannot read. *)
Lemma comparison_negation_syntax : exists p e r,
  node_of_file p e /\ comparison_negation (frames p) e = Some r /\
  forall P, ~ fix_harmless P p e r.
Proof.
  exists (here [FBinR (BCmp CEq) false (var (lit "a"))]),
         (EUn UNot (EParen (EBin (BCmp CGt) false (var (lit "x")) (var (lit "y"))))).
  eexists. split; [read_it 30|]. split; [reflexivity|].
  intro P. by_syntax 30.
Qed.
(** [!(x] line break [- y > a)] becomes two statements. *)
Lemma comparison_negation_lines : exists p e r,
  node_of_file p e /\ comparison_negation (frames p) e = Some r /\ frames p = [] /\
  ~ fix_harmless (numbers [lit "a"; lit "x"; lit "y"]) p e r.
Proof.
  exists (here []),
         (EUn UNot (EParen (EBin (BCmp CGt) false (EBin BSub true (var (lit "x")) (var (lit "y"))) (var (lit "a"))))).
  eexists. split; [read_it 30|]. split; [reflexivity|]. split; [reflexivity|].
  by_run 30 (demo (env_of [(lit "a", nm [2%Z]); (lit "x", nm [1%Z]); (lit "y", nm [1%Z])])) 0%Z.
  vars.
Qed.

(** [any(-x)] becomes [!all(x)]. *)
Lemma outer_negation_minus : exists p e r,
  node_of_file p e /\ outer_negation (frames p) e = Some r /\
  ~ fix_harmless (numbers [lit "x"]) p e r.
Proof.
  exists (here []), (call1 (lit "any") (EUn UNeg (var (lit "x")))).
  eexists. split; [read_it 30|]. split; [reflexivity|].
  by_run 30 (demo (env_of [(lit "x", nm [1%Z])])) 0%Z.
  vars.
Qed.
(** [any(!x) + a] becomes [!all(x) + a]. *)
Lemma outer_negation_sum : exists p e r,
  node_of_file p e /\ outer_negation (frames p) e = Some r /\
  ~ fix_harmless (fun I => logicals [lit "x"] I /\ numbers [lit "a"] I) p e r.
Proof.
  exists (here [FBinL BAdd false (var (lit "a"))]), (call1 (lit "any") (EUn UNot (var (lit "x")))).
  eexists. split; [read_it 30|]. split; [reflexivity|].
  by_run 30 (demo (env_of [(lit "x", VLgl [Some true]); (lit "a", nm [1%Z])])) 0%Z.
  split; vars.
Qed.

(** [-ifelse(x > y, TRUE, FALSE)] becomes [-x > y]. *)
Definition ifelse_call (f : text) (x y z : expr) : expr :=
  ECall (EAtom (AId f)) [(None, Some x); (None, Some y); (None, Some z)].
Lemma redundant_ifelse_minus : exists p e r,
  node_of_file p e /\ redundant_ifelse (frames p) e = Some r /\
  ~ fix_harmless (numbers [lit "x"; lit "y"]) p e r.
Proof.
  exists (here [FUn UNeg]),
         (ifelse_call (lit "ifelse") (EBin (BCmp CGt) false (var (lit "x")) (var (lit "y"))) (EAtom ATrue) (EAtom AFalse)).
  eexists. split; [read_it 30|]. split; [reflexivity|].
  by_run 30 (demo (env_of [(lit "x", nm [2%Z]); (lit "y", nm [1%Z])])) 0%Z.
  vars.
Qed.
(** [ifelse(x, TRUE, FALSE)] becomes [x], which may be a number. *)
Lemma redundant_ifelse_number : exists p e r,
  node_of_file p e /\ redundant_ifelse (frames p) e = Some r /\ frames p = [] /\
  ~ fix_harmless (numbers [lit "x"]) p e r.
Proof.
  exists (here []), (ifelse_call (lit "ifelse") (var (lit "x")) (EAtom ATrue) (EAtom AFalse)).
  eexists. split; [read_it 30|]. split; [reflexivity|]. split; [reflexivity|].
  by_run 30 (demo (env_of [(lit "x", nm [2%Z])])) 0%Z.
  vars.
Qed.

(** [any(duplicated(x)) + a] becomes [anyDuplicated(x) > 0 + a]. *)
Lemma any_duplicated_sum : exists p e r,
  node_of_file p e /\ any_duplicated (frames p) e = Some r /\
  ~ fix_harmless (numbers [lit "x"; lit "a"]) p e r.
Proof.
  exists (here [FBinL BAdd false (var (lit "a"))]),
         (call1 (lit "any") (call1 (lit "duplicated") (var (lit "x")))).
  eexists. split; [read_it 30|]. split; [reflexivity|].
  by_run 30 (demo (env_of [(lit "x", nm [2%Z]); (lit "a", nm [2%Z])])) 0%Z.
  vars.
Qed.
(** [any(is.na(x), is.na(y))] becomes [anyNA(x)]. *)
Lemma any_is_na_two : exists p e r,
  node_of_file p e /\ any_is_na (frames p) e = Some r /\ frames p = [] /\
  ~ fix_harmless (numbers [lit "x"; lit "y"]) p e r.
Proof.
  exists (here []),
         (ECall (EAtom (AId (lit "any"))) [(None, Some (call1 (lit "is.na") (var (lit "x"))));
                                           (None, Some (call1 (lit "is.na") (var (lit "y"))))]).
  eexists. split; [read_it 30|]. split; [reflexivity|]. split; [reflexivity|].
  by_run 30 (demo (env_of [(lit "x", nm [2%Z]); (lit "y", VNum [None])])) 0%Z.
  vars.
Qed.
(** [foo::any(is.na(x))] becomes [anyNA(x)]. *)
Lemma any_is_na_foreign : exists p e r,
  node_of_file p e /\ any_is_na (frames p) e = Some r /\ frames p = [] /\
  ~ fix_harmless (numbers [lit "x"]) p e r.
Proof.
  exists (here []),
         (ECall (EAtom (ANs (lit "foo") false (lit "any"))) [(None, Some (call1 (lit "is.na") (var (lit "x"))))]).
  eexists. split; [read_it 30|]. split; [reflexivity|]. split; [reflexivity|].
  by_run 30 (demo (env_of [(lit "x", nm [2%Z])])) 0%Z.
  vars.
Qed.

(** [x == TRUE] becomes [x]. *)
Lemma redundant_equals_number : exists p e r,
  node_of_file p e /\ redundant_equals (frames p) e = Some r /\ frames p = [] /\
  ~ fix_harmless (numbers [lit "x"]) p e r.
Proof.
  exists (here []), (EBin (BCmp CEq) false (var (lit "x")) (EAtom ATrue)).
  eexists. split; [read_it 30|]. split; [reflexivity|]. split; [reflexivity|].
  by_run 30 (demo (env_of [(lit "x", nm [2%Z])])) 0%Z.
  vars.
Qed.

(** [if (is.null(x)) a + y else x] becomes [x %||% a + y]. *)
Lemma coalesce_sum : exists p e r,
  node_of_file p e /\ coalesce (frames p) e = Some r /\ frames p = [] /\
  ~ fix_harmless (numbers [lit "x"; lit "a"; lit "y"]) p e r.
Proof.
  exists (here []),
         (EIf (call1 (lit "is.null") (var (lit "x"))) (EBin BAdd false (var (lit "a")) (var (lit "y")))
              (Some (var (lit "x")))).
  eexists. split; [read_it 30|]. split; [reflexivity|]. split; [reflexivity|].
  by_run 30 (demo (env_of [(lit "x", nm [2%Z]); (lit "a", nm [3%Z]); (lit "y", nm [4%Z])])) 0%Z.
  vars.
Qed.
(** [if (is.null(f(x))) y else f(x)] calls [f] twice; [f(x) %||% y] calls it once. *)
Lemma coalesce_twice : exists p e r,
  node_of_file p e /\ coalesce (frames p) e = Some r /\ frames p = [] /\
  ~ fix_harmless (numbers [lit "x"; lit "y"]) p e r.
Proof.
  exists (here []),
         (EIf (call1 (lit "is.null") (call1 (lit "f") (var (lit "x")))) (var (lit "y"))
              (Some (call1 (lit "f") (var (lit "x"))))).
  eexists. split; [read_it 30|]. split; [reflexivity|]. split; [reflexivity|].
  by_run 30 (demo (env_of [(lit "x", nm [2%Z]); (lit "y", nm [4%Z])])) 0%Z.
  vars.
Qed.

(** [T <- 5] becomes [TRUE <- 5]. *)
Lemma true_false_assigned : exists p e r,
  node_of_file p e /\ true_false_symbol (frames p) e = Some r /\
  ~ fix_harmless usual_T_F p e r.
Proof.
  exists (here [FBinL (BAssign (lit "<-")) false (EAtom (ANum (lit "5")))]), (var (lit "T")).
  eexists. split; [read_it 30|]. split; [reflexivity|].
  by_run 30 (demo (env_of [(lit "T", VLgl [Some true]); (lit "F", VLgl [Some false])])) 0%Z.
  split; intro s; reflexivity.
Qed.
(** [for (T in x) y] becomes [for (TRUE in x) y], which R cannot read. *)
Lemma true_false_for : exists p e r,
  node_of_file p e /\ true_false_symbol_for (frames p) e = Some r /\
  forall P, ~ fix_harmless P p e r.
Proof.
  exists (here []), (EFor (lit "T") (var (lit "x")) (var (lit "y"))).
  eexists. split; [read_it 30|]. split; [reflexivity|].
  intro P. by_syntax 30.
Qed.

(** *** Fixes that are not read as one expression *)
Lemma not_one : forall shape p r c q n, new_text r = Some c ->
  pprog n (edited (fix_place p r) c) = POk q [] ->
  (forall e', q <> file_with (fix_place p r) e') ->
  ~ fix_is_one_expression shape p r.
Proof.
  intros shape p r c q n Hc Hq Hne H. destruct (H c Hc) as (e' & _ & _ & R).
  apply (Hne e'). eapply reads_det; [|exact R]. exists n. exact Hq.
Qed.
Ltac by_two n :=
  let shape := fresh "shape" in intro shape; eapply (not_one shape _ _ _ _ n); [vm_compute; reflexivity|vm_compute; reflexivity|
    intro e'; cbn; discriminate].

(** [length(x > y) + a] becomes [length(x) > y + a]. *)
Lemma length_test_sum : exists p e r,
  node_of_file p e /\ length_test (frames p) e = ROk (Some r) /\
  forall shape, ~ fix_is_one_expression shape p r.
Proof.
  exists (here [FBinL BAdd false (var (lit "a"))]),
         (call1 (lit "length") (EBin (BCmp CGt) false (var (lit "x")) (var (lit "y")))).
  eexists. split; [read_it 30|]. split; [reflexivity|]. by_two 30.
Qed.
(** [isFALSE(all.equal(x, y)) + a] becomes [!isTRUE(all.equal(x, y)) + a]. *)
Lemma all_equal_sum : exists p e r,
  node_of_file p e /\ all_equal (frames p) e = Some r /\
  forall shape, ~ fix_is_one_expression shape p r.
Proof.
  exists (here [FBinL BAdd false (var (lit "a"))]),
         (call1 (lit "isFALSE") (ECall (EAtom (AId (lit "all.equal"))) [(None, Some (var (lit "x"))); (None, Some (var (lit "y")))])).
  eexists. split; [read_it 30|]. split; [reflexivity|]. by_two 30.
Qed.
(** [(while (TRUE) x] line break [- y)] becomes [(repeat { x] line break [- y })]. *)
Lemma repeat_lines : exists p e r,
  node_of_file p e /\ repeat_loop (frames p) e = Some r /\
  ~ fix_harmless (numbers [lit "x"; lit "y"]) p e r.
Proof.
  exists (here [FParen]),
         (EWhile (EAtom ATrue) (EBin BSub true (var (lit "x")) (var (lit "y")))).
  eexists. split; [read_it 30|]. split; [reflexivity|].
  by_run 30 (demo (env_of [(lit "x", nm [2%Z]); (lit "y", nm [1%Z])])) 0%Z.
  vars.
Qed.
Lemma any_duplicated_two : exists p e r,
  node_of_file p e /\ any_duplicated (frames p) e = Some r /\
  forall shape, ~ fix_is_one_expression shape p r.
Proof.
  exists (here [FBinL BAdd false (var (lit "a"))]),
         (call1 (lit "any") (call1 (lit "duplicated") (var (lit "x")))).
  eexists. split; [read_it 30|]. split; [reflexivity|]. by_two 30.
Qed.

(** What begins with [for] goes on with an opening parenthesis and a name. *)
Lemma for_begins : forall e rest ts, toks e ++ rest = TFor :: ts ->
  exists v ts', ts = TLp :: TAtom (AId v) :: ts'.
Proof.
  intros e. induction e using expr_ind2; intros rest ts H'; cbn [toks] in H';
    repeat rewrite <- app_assoc in H'; try discriminate; eauto.
  - destruct u; discriminate.
  - cbn [app] in H'. injection H' as <-. eauto.
Qed.
(** So nothing is written [for (k in …] unless [k] is a name. *)
Lemma for_variable_not_written : forall e k ts, (forall v, k <> AId v) ->
  TFor :: TLp :: TAtom k :: ts <> toks e.
Proof.
  intros e k ts K H. symmetry in H. rewrite <- (app_nil_r (toks e)) in H.
  destruct (for_begins _ _ _ H) as (v & ts' & E). injection E as E _. now apply (K v).
Qed.
