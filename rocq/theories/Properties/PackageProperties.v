(** Package-level analysis: C21, C22, C55, C56.  See Spec/PackageSpec.v for the vocabulary.

    Everywhere: [ia] is [char::is_alphanumeric], [regex] the regular expression engine, [skipped] the
    configured list of names to skip, [order] the iteration order of the hash map of packages,
    [namespace] the content of the NAMESPACE file of a package. *)
From Coq Require Import Permutation.
From Verif Require Import Model.Text Model.Base Model.Cli Model.Package Spec.PackageSpec.
From Verif Require Import Proofs.TextProofs Proofs.CliDiscover Proofs.PackageScan Proofs.PackageDup Proofs.PackageWords
  Proofs.PackageExports Proofs.PackageUnused Proofs.PackageUnused2 Proofs.PackageFiles Proofs.PackageSearch.

(** ** C21 *)
(** A definition is reported iff there is an earlier one of the same name in the same package. *)
Theorem C21_reported_iff_defined_earlier ia order fs p d :
  unicode_alnum ia -> (forall gs, Permutation (order gs) gs) -> distinct_files fs ->
  In d (map fst (lookup p (compute_duplicates ia order fs))) <->
  exists root p0 d0, fun_def ia fs root p d /\ fun_def ia fs root p0 d0 /\ ad_name d0 = ad_name d /\ before p0 d0 p d.
Proof. intros U O D. now apply duplicates_reported. Qed.
Print Assumptions C21_reported_iff_defined_earlier.
(** The message names the first definition of all. *)
Theorem C21_message_names_the_first ia order fs p d p1 l1 :
  unicode_alnum ia -> (forall gs, Permutation (order gs) gs) -> distinct_files fs ->
  In (d, (p1, l1)) (lookup p (compute_duplicates ia order fs)) <->
  exists root d1, fun_def ia fs root p d /\ fun_def ia fs root p1 d1 /\ ad_line d1 = l1 /\
    ad_name d1 = ad_name d /\ before p1 d1 p d /\
    forall p2 d2, fun_def ia fs root p2 d2 -> ad_name d2 = ad_name d -> (p2, d2) = (p1, d1) \/ before p1 d1 p2 d2.
Proof. intros U O D. now apply duplicates_iff. Qed.
Print Assumptions C21_message_names_the_first.
(** Neither the order of the files nor that of the packages matters. *)
Theorem C21_order_independent ia order order' fs fs' p :
  (forall gs, Permutation (order gs) gs) -> (forall gs, Permutation (order' gs) gs) ->
  distinct_files fs -> Permutation fs fs' ->
  lookup p (compute_duplicates ia order fs) = lookup p (compute_duplicates ia order' fs').
Proof. apply duplicates_order. Qed.
Print Assumptions C21_order_independent.
(** The files that are analysed are distinct when those given and those on disk are, and when no
    package lies inside the R directory of another one. *)
Theorem C21_files_are_distinct disk has_description content paths check_unused :
  NoDup paths -> NoDup disk ->
  (forall p q r, In p paths -> In q paths -> under (parent (parent p) ++ [lit "R"]) r = true ->
     under (parent (parent q) ++ [lit "R"]) r = true -> parent (parent p) = parent (parent q)) ->
  distinct_files (shared_data disk has_description content paths check_unused).
Proof. apply shared_distinct. Qed.
Print Assumptions C21_files_are_distinct.

Example C21_ex : let pk := [lit "p"; lit "R"] in
  let fs := [mk_pf pk (pk ++ [lit "b.R"]) SR (lit "f <- function() 1"); mk_pf pk (pk ++ [lit "a.R"]) SR (lit "f = \(x) x")] in
  distinct_files fs /\
  lookup (pk ++ [lit "b.R"]) (compute_duplicates ascii_alnum (fun gs => gs) fs) =
    [(mk_def (lit "f") 0 1 1, (pk ++ [lit "a.R"], 1))] /\
  lookup (pk ++ [lit "a.R"]) (compute_duplicates ascii_alnum (fun gs => gs) fs) = [].
Proof.
  split; [|split; vm_compute; reflexivity]. unfold distinct_files. vm_compute.
  repeat constructor; simpl; intuition discriminate.
Qed.

(** ** C22 *)
(** Missing: names that are not ASCII identifiers, NAMESPACE directives over several lines, and, for a
    function of tests/ or inst/, references from another area; see below. *)
Theorem C22_no_reference_missed_partial ia regex skipped order namespace fs p d :
  unicode_alnum ia -> (forall gs, Permutation (order gs) gs) -> plain_name (ad_name d) ->
  In d (lookup p (compute_unused ia regex skipped order namespace fs)) ->
  exists f ns, In f fs /\ pf_path f = p /\
    defines ia (pf_content f) (ad_name d) (ad_start d) (ad_line d) /\
    skipped (ad_name d) = false /\ namespace (pf_root f) = Some ns /\
    (forall g, In g fs -> pf_root g = pf_root f -> pf_scope g = pf_scope f ->
       ~ referenced ia (pf_content g) (ad_name d)) /\
    (pf_scope f = SR ->
       ~ exported regex ns (ad_name d) /\ ~ hook (ad_name d) /\
       forall g, In g fs -> pf_root g = pf_root f -> pf_scope g <> SR -> ~ mentioned (pf_content g) (ad_name d)).
Proof.
  intros U O P I. apply unused_sound in I as (f & If & Ep & R); auto.
  apply (reported_iff ia U) in R as (Id & Sk & _ & H & ns & N & K); auto.
  exists f, ns. split; auto. split; auto.
  pose proof Id as Id0. apply (assignments_iff ia U) in Id as (_ & D & _). split; auto. split; auto. split; auto.
  assert (L : forall pre post, word_at pre post -> loose_word_at pre post).
  { intros pre post W. exists pre, []. rewrite app_nil_r. auto. }
  split.
  - intros g Ig Rg Sg (pre & post & E & W & C & Nd). apply (H g Ig Rg Sg). exists pre, post. auto.
  - intros Sc. destruct (K Sc) as (K1 & K2 & K3 & K4). split; [|split; auto].
    + intros E. apply K4. apply exported_sound; auto. apply names_in with (f := f).
      * apply of_scope_in. rewrite of_root_in. auto.
      * exact Id0.
    + intros g Ig Rg Sg (pre & post & E & W & C). apply (K3 g Ig Rg Sg). exists pre, post. auto.
Qed.
Print Assumptions C22_no_reference_missed_partial.
(** From the files on disk: when a function of R/ is reported, no R file of R/ of the package refers to
    it, and no file of tests/, inst/tinytest/, inst/tests/ or src/ mentions it.
    Missing: several packages in one run, packages stored below a directory called tests, src or
    inst (C55), and what is missing above. *)
Theorem C22_whole_package_searched_partial ia regex skipped order namespace disk has_description content paths root n d :
  unicode_alnum ia -> (forall gs, Permutation (order gs) gs) -> plain_name (ad_name d) ->
  (exists p m, In p paths /\ p = root ++ [lit "R"; m] /\ r_file p = true) -> has_description root = true ->
  (forall p, In p paths -> r_file p = true -> in_package has_description p = true -> parent (parent p) = root) ->
  (forall x, In x root -> x <> lit "tests" /\ x <> lit "src" /\ x <> lit "inst") ->
  In d (lookup (root ++ [lit "R"; n])
         (compute_unused ia regex skipped order namespace (shared_data disk has_description content paths true))) ->
  forall q c, In q disk -> content q = Some c ->
    (r_source root q -> ~ referenced ia c (ad_name d)) /\
    (other_source root q -> package_of has_description q root -> ~ mentioned c (ad_name d)).
Proof.
  intros U O P Sr Ir One X I q c Iq C.
  destruct (C22_no_reference_missed_partial ia regex skipped order namespace _ _ d U O P I) as (f & ns & If & Ep & _ & _ & _ & R & K).
  destruct (shared_scope disk has_description content paths root true f n One Ep If) as (Sf & Rf).
  split.
  - intros S. apply (R (mk_pf (root ++ [lit "R"]) q SR c)); [|now rewrite Rf|now rewrite Sf].
    now apply r_searched.
  - intros S Pk. destruct (K Sf) as (_ & _ & K'). 
    destruct (other_searched disk has_description content paths root Sr Ir q c Iq C S Pk X) as (s & Ns & Is).
    apply (K' (mk_pf (root ++ [lit "R"]) q s c)); auto.
Qed.
Print Assumptions C22_whole_package_searched_partial.
Example C22_whole_package_ex :
  let root := [lit "home"; lit "pkg"] in
  let r := root ++ [lit "R"; lit "a.R"] in let t := root ++ [lit "src"; lit "b.cpp"] in
  let content p := if peqb p r then Some (lit "foo <- function() 1") else if peqb p t then Some (lit "bar") else None in
  map ad_name (lookup r (compute_unused ascii_alnum (fun _ => None) (fun _ => false) (fun gs => gs) (fun _ => Some [])
      (shared_data [r; t] (peqb root) content [r] true))) = [lit "foo"] /\
  other_source root t /\ package_of (peqb root) t root.
Proof.
  split; [vm_compute; reflexivity|]. split.
  - exists [lit "src"; lit "b.cpp"], SSrc. split; [reflexivity|]. split; [constructor|]. split; [|congruence].
    intros _. right. left. exists [], (lit "b"). repeat split; auto; [discriminate|]. intros [X|[]]. discriminate X.
  - split; [reflexivity|]. split; [exists [lit "src"; lit "b.cpp"]; split; [discriminate|reflexivity]|].
    intros d rest _ _ H. apply peqb_eq in H. subst d. auto.
Qed.

(** Where the claim is false.  A name with a letter that is not ASCII (233): the definition is
    recognised, the calls are not. *)
Theorem C22_accented_name_refuted :
  exists ia fs d, unicode_alnum ia /\
    In d (lookup [lit "p"; lit "R"; lit "a.R"] (compute_unused ia (fun _ => None) (fun _ => false) (fun gs => gs) (fun _ => Some []) fs)) /\
    exists f, In f fs /\ pf_root f = [lit "p"; lit "R"] /\ pf_scope f = SR /\ referenced ia (pf_content f) (ad_name d).
Proof.
  set (ia := fun c => ascii_alnum c || N.eqb c 233%N).
  set (f := mk_pf [lit "p"; lit "R"] [lit "p"; lit "R"; lit "a.R"] SR (233%N :: lit " <- function() 1" ++ [nl; 233%N] ++ lit "()")).
  exists ia, [f], (mk_def [233%N] 0 2 1). split; [|split].
  - destruct ascii_unicode as (A & B). split; intros c H; unfold ia.
    + rewrite (proj2 (N.eqb_neq _ _)) by lia. now rewrite orb_false_r.
    + rewrite (B c H). simpl. apply N.eqb_neq. intros ->. discriminate.
  - vm_compute. auto.
  - exists f. split; [now left|]. split; auto. split; auto.
    exists (233%N :: lit " <- function() 1" ++ [nl]), (lit "()"). split; [reflexivity|]. split; [|split].
    + split.
      * intros a c E. change (233%N :: lit " <- function() 1" ++ [nl]) with ((233%N :: lit " <- function() 1") ++ [nl]) in E.
        apply app_inj_tail in E as (_ & <-). now apply ws_not_wordy.
      * intros c b [= <- _]. intros W. unfold wordy in W. vm_compute in W. intuition discriminate.
    + intros (q & ws & r & E & _). assert (In 35%N (233%N :: lit " <- function() 1" ++ [nl])) as X
        by (rewrite E; apply in_or_app; right; apply in_or_app; right; now left).
      vm_compute in X. intuition discriminate.
    + intros (_ & (w1 & op & w2 & rhs & E & B1 & _ & Ho & _)).
      destruct w1 as [|c w1]; [destruct Ho as [-> | ->]; discriminate|]. injection E as <- _. inversion B1 as [|? ? (X & _) _].
      discriminate.
Qed.
Print Assumptions C22_accented_name_refuted.
(** A directive that spans several lines is not recognised: the exported function is reported. *)
Theorem C22_multiline_export_refuted :
  let ns := lit "export(" ++ [nl] ++ lit "  foo" ++ [nl] ++ lit ")" in
  let fs := [mk_pf [lit "p"; lit "R"] [lit "p"; lit "R"; lit "a.R"] SR (lit "foo <- function() 1")] in
  In (mk_def (lit "foo") 0 3 1)
    (lookup [lit "p"; lit "R"; lit "a.R"] (compute_unused ascii_alnum (fun _ => None) (fun _ => false) (fun gs => gs) (fun _ => Some ns) fs)).
Proof. vm_compute. auto. Qed.
Print Assumptions C22_multiline_export_refuted.
(** A function of tests/ that is called from inst/tests/ only is reported. *)
Theorem C22_other_area_refuted :
  let fs := [mk_pf [lit "p"; lit "R"] [lit "p"; lit "R"; lit "a.R"] SR (lit "1");
             mk_pf [lit "p"; lit "R"] [lit "p"; lit "tests"; lit "h.R"] STests (lit "foo <- function() 1");
             mk_pf [lit "p"; lit "R"] [lit "p"; lit "inst"; lit "tests"; lit "t.R"] SInst (lit "foo()")] in
  In (mk_def (lit "foo") 0 3 1)
    (lookup [lit "p"; lit "tests"; lit "h.R"] (compute_unused ascii_alnum (fun _ => None) (fun _ => false) (fun gs => gs) (fun _ => Some []) fs)) /\
  exists g, In g fs /\ referenced ascii_alnum (pf_content g) (lit "foo").
Proof.
  split; [vm_compute; auto|].
  eexists. split; [right; right; now left|]. exists [], (lit "()"). split; [reflexivity|]. split; [|split].
  - split.
    + intros a c E. destruct a; discriminate.
    + intros c b [= <- _] W. unfold wordy in W. vm_compute in W. intuition discriminate.
  - intros (q & ws & r & E & _). destruct q; [destruct ws; discriminate|discriminate].
  - intros (_ & (w1 & op & w2 & rhs & E & B1 & _ & Ho & _)).
    destruct w1 as [|c w1]; [destruct Ho as [-> | ->]; discriminate|]. injection E as <- _. inversion B1 as [|? ? (X & _) _].
    discriminate.
Qed.
Print Assumptions C22_other_area_refuted.
(** A package stored below tests/ of another one (a test fixture): its R files are analysed as R files
    and again as tests, where exports are ignored; its exported function is reported when both
    packages are linted together. *)
Theorem C22_nested_package_refuted :
  let outer := [lit "pkg"] in let inner := [lit "pkg"; lit "tests"; lit "fix"] in
  let a := outer ++ [lit "R"; lit "a.R"] in let b := inner ++ [lit "R"; lit "b.R"] in
  let content p := if peqb p a then Some (lit "1") else if peqb p b then Some (lit "foo <- function() 1") else None in
  let run paths := map ad_name (lookup b (compute_unused ascii_alnum (fun _ => None) (fun _ => false) (fun gs => gs)
      (fun _ => Some (lit "export(foo)"))
      (shared_data [a; b] (fun d => peqb d outer || peqb d inner) content paths true))) in
  run [b] = [] /\ run [a; b] = [lit "foo"].
Proof. split; vm_compute; reflexivity. Qed.
Print Assumptions C22_nested_package_refuted.
Example C22_ex :
  let fs := [mk_pf [lit "p"; lit "R"] [lit "p"; lit "R"; lit "a.R"] SR (lit "foo <- function() bar()" ++ [nl] ++ lit "bar <- function() 1")] in
  let ns := lit "export(baz)" in
  map ad_name (lookup [lit "p"; lit "R"; lit "a.R"] (compute_unused ascii_alnum (fun _ => None) (fun _ => false) (fun gs => gs) (fun _ => Some ns) fs)) = [lit "foo"]
  /\ plain_name (lit "foo").
Proof.
  split; [vm_compute; reflexivity|]. split; [repeat constructor; left; reflexivity|]. exists 102%N, (lit "oo"). auto.
Qed.

(** ** C55 *)
(** Missing: packages stored below a directory called tests, src or inst; see below. *)
Theorem C55_area_from_package_partial root rest s :
  (forall c, In c root -> c <> lit "tests" /\ c <> lit "src" /\ c <> lit "inst") -> area rest s ->
  file_scope_from_path (root ++ rest) = s.
Proof. apply scope_area. Qed.
Print Assumptions C55_area_from_package_partial.
(** Two copies of a package, in /home/pkg and in /src/pkg, with an unused helper in tests/: it is
    reported in the first one only. *)
Theorem C55_location_matters_refuted :
  let run root :=
    let r := root ++ [lit "R"; lit "a.R"] in let t := root ++ [lit "tests"; lit "h.R"] in
    let content p := if peqb p r then Some (lit "1") else if peqb p t then Some (lit "foo <- function() 1") else None in
    map ad_name (lookup t (compute_unused ascii_alnum (fun _ => None) (fun _ => false) (fun gs => gs) (fun _ => Some [])
      (shared_data [r; t] (peqb root) content [r; t] true))) in
  run [lit "home"; lit "pkg"] = [lit "foo"] /\ run [lit "src"; lit "pkg"] = [].
Proof. split; vm_compute; reflexivity. Qed.
Print Assumptions C55_location_matters_refuted.
Example C55_ex : area [lit "inst"; lit "tinytest"; lit "t.R"] SInst /\
  (forall c, In c [lit "home"; lit "pkg"] -> c <> lit "tests" /\ c <> lit "src" /\ c <> lit "inst").
Proof. split; [constructor|]. intros c [<-|[<-|[]]]; repeat split; discriminate. Qed.

(** ** C56 *)
(** A function that is not even loosely referenced is reported. *)
Theorem C56_unused_is_reported ia regex skipped order namespace fs f name start line ns :
  unicode_alnum ia -> (forall gs, Permutation (order gs) gs) -> NoDup (map pf_path fs) -> plain_name name ->
  In f fs -> pf_scope f <> SSrc -> defines ia (pf_content f) name start line ->
  (exists r, In r fs /\ pf_root r = pf_root f /\ pf_scope r = SR) ->
  namespace (pf_root f) = Some ns -> skipped name = false ->
  (forall g, In g fs -> pf_root g = pf_root f -> pf_scope g = pf_scope f -> ~ maybe_referenced ia (pf_content g) name) ->
  (pf_scope f = SR ->
     ~ hook name /\ ~ maybe_exported regex ns name /\
     (forall g, generic_of name g -> g <> [] -> ~ r_mentions fs (pf_root f) g) /\
     (forall g, In g fs -> pf_root g = pf_root f -> pf_scope g <> SR -> ~ maybe_mentioned (pf_content g) name)) ->
  In (mk_def name start (start + blen name) line)
     (lookup (pf_path f) (compute_unused ia regex skipped order namespace fs)).
Proof.
  intros U O ND P If Ns D R N Sk H K. apply unused_complete; auto.
  apply (reported_iff ia U); auto. simpl. split.
  - apply (assignments_iff ia U). simpl. auto.
  - split; auto. split; auto. split; auto. exists ns. split; auto. intros Sc. destruct (K Sc) as (K1 & K2 & K3 & K4).
    split; auto. split; auto. split; auto. intros I. apply K2. eapply exports_from; eauto.
Qed.
Print Assumptions C56_unused_is_reported.
(** What is reported does not depend on the order of the packages or of the files. *)
Theorem C56_order_independent ia regex skipped order order' namespace fs fs' p d :
  (forall gs, Permutation (order gs) gs) -> (forall gs, Permutation (order' gs) gs) ->
  NoDup (map pf_path fs) -> Permutation fs fs' ->
  In d (lookup p (compute_unused ia regex skipped order namespace fs)) <->
  In d (lookup p (compute_unused ia regex skipped order' namespace fs')).
Proof.
  intros O O' ND P. split; intros H; eapply unused_order; try exact H; auto using Permutation_sym.
  eapply Permutation_NoDup; [apply Permutation_map, P|auto].
Qed.
Print Assumptions C56_order_independent.
Example C56_ex : exists f, let fs := [f] in let name := lit "foo" in
  NoDup (map pf_path fs) /\ plain_name name /\ defines ascii_alnum (pf_content f) name 0 1 /\ pf_scope f = SR /\
  ~ hook name /\ ~ maybe_exported (fun _ => None) (lit "export(bar)") name /\
  (forall g, ~ generic_of name g) /\ ~ maybe_referenced ascii_alnum (pf_content f) name.
Proof.
  set (f := mk_pf [lit "p"; lit "R"] [lit "p"; lit "R"; lit "a.R"] SR (lit "foo <- function() 1")).
  exists f.
  assert (P : plain_name (lit "foo")) by (split; [repeat constructor; left; reflexivity|]; exists 102%N, (lit "oo"); auto).
  split; [repeat constructor; simpl; tauto|]. split; auto. split.
  { apply (proj1 (proj1 (scan_iff ascii_alnum ascii_unicode (pf_content f) (mk_def (lit "foo") 0 3 1)) ltac:(vm_compute; auto))). }
  split; auto. split; [unfold hook; simpl; intuition discriminate|]. split.
  { intros [(a & b & E)|[(g & c & E & _)|(pat & m & _ & _ & E & _)]]; [| |discriminate].
    - assert (K := f_equal (fun t => match find_sub (lit "foo") t with None => true | _ => false end) E). cbv beta in K.
      destruct (find_sub (lit "foo") (a ++ lit "foo" ++ b)) eqn:F.
      + vm_compute in K. discriminate.
      + now apply (proj1 (find_sub_none _ _) F a b).
    - assert (X : In 46%N (lit "foo")) by (rewrite E; apply in_or_app; right; now left). vm_compute in X. intuition discriminate. }
  split.
  { intros g (r & E). assert (X : In 46%N (lit "foo")) by (rewrite E; apply in_or_app; right; now left). vm_compute in X. intuition discriminate. }
  apply (proj1 (count_iff ascii_alnum ascii_unicode [f] (lit "foo") P ltac:(intros x [<-|[]]; discriminate)) ltac:(vm_compute; auto) f).
  now left.
Qed.
