(** Proofs about the names of files (C103). *)
From Verif Require Import Model.Text Model.Base Model.Cli Model.Paths Spec.PathSpec Proofs.TextProofs Proofs.SplitProofs.

Lemma slash_join_slashed l : slash_join l = slashed l.
Proof. reflexivity. Qed.

Lemma split_slashed l : l <> [] -> (forall c, In c l -> ~ In 47%N c) -> split_on 47%N (slashed l) = l.
Proof.
  induction l as [|c [|d l] IH]; intros N H; [congruence| |].
  - cbn [slashed]. apply split_on_single. apply H. now left.
  - cbn [slashed]. rewrite split_on_app by (apply H; now left). f_equal. apply IH; [discriminate|].
    intros x I. apply H. now right.
Qed.
Lemma parts_split t l : parts t l -> split_on 47%N t = l.
Proof. intros (-> & N & H). now apply split_slashed. Qed.
Lemma join_slashed l : join_with 47%N l = slashed l.
Proof. induction l as [|c [|d l] IH]; auto. cbn [join_with slashed] in *. now rewrite IH. Qed.
Lemma parts_ex t : parts t (split_on 47%N t).
Proof.
  split; [|split].
  - now rewrite <- join_slashed, split_on_join.
  - apply split_on_nonempty.
  - intros c. apply split_on_pieces.
Qed.

(** The parts that count. *)
Definition names (l : list text) : list text := filter (fun c => negb (teqb c [] || teqb c (lit "."))) l.
Lemma names_app a b : names (a ++ b) = names a ++ names b.
Proof. apply filter_app. Qed.
Lemma names_stay c l : (c = [] \/ c = lit ".") -> names (c :: l) = names l.
Proof. intros [->| ->]; reflexivity. Qed.
Lemma names_keep c l : c <> [] -> c <> lit "." -> names (c :: l) = c :: names l.
Proof.
  intros A B. unfold names. cbn [filter]. rewrite (proj2 (teqb_neq _ _) A), (proj2 (teqb_neq _ _) B). reflexivity.
Qed.
Lemma names_proper l : Forall proper l -> names l = l.
Proof.
  induction 1 as [|c l (A & B & _) _ IH]; auto. rewrite names_keep by auto. now rewrite IH.
Qed.
Lemma names_no_up l : ~ In (lit "..") l -> Forall proper (names l).
Proof.
  induction l as [|c l IH]; intros H; [constructor|].
  destruct (list_eq_dec N.eq_dec c []) as [E|A]; [rewrite names_stay by auto; apply IH; intros I; apply H; now right|].
  destruct (list_eq_dec N.eq_dec c (lit ".")) as [E|B]; [rewrite names_stay by auto; apply IH; intros I; apply H; now right|].
  rewrite names_keep by auto. constructor.
  - split; [|split]; auto. intros ->. apply H. now left.
  - apply IH. intros I. apply H. now right.
Qed.

Definition climb := fold_left absolute_step.
Lemma step_up d : absolute_step d (lit "..") = removelast d.
Proof. reflexivity. Qed.
Lemma step_name d c : proper c -> absolute_step d c = d ++ [c].
Proof. intros (_ & _ & N). unfold absolute_step. now rewrite (proj2 (teqb_neq _ _) N). Qed.
Lemma climb_names l d : Forall proper l -> climb l d = d ++ l.
Proof.
  intros H. revert d. induction H as [|c l P _ IH]; intros d; [now rewrite app_nil_r|].
  unfold climb in *. cbn [fold_left]. rewrite step_name, IH by auto. now rewrite <- app_assoc.
Qed.

Section Tree.
Variable root : node.

Lemma plainly_lexical d l e : leads_plainly root d l e -> e = climb (names l) d.
Proof.
  induction 1 as [|d c l e D C _ IH|d l e D _ IH|d c l e n P St NL _ IH].
  - reflexivity.
  - rewrite names_stay by auto. exact IH.
  - rewrite names_keep by discriminate. exact IH.
  - destruct P as (A & B & C). rewrite names_keep by auto. unfold climb. cbn [fold_left].
    rewrite step_name by now split. exact IH.
Qed.
Lemma stay_inv d c l e : (c = [] \/ c = lit ".") -> leads root d (c :: l) e -> leads root d l e.
Proof.
  intros C H. remember (c :: l) as m eqn:E. destruct H as [d|d c' l' e D C' H|d l' e D H|d c' l' e n P St NL H|d c' l' e tg P St H];
    try discriminate; try (injection E as -> ->).
  - exact H.
  - injection E as E ->. exfalso. subst c. destruct C; discriminate.
  - exfalso. destruct P as (A & B & _). destruct C; contradiction.
  - exfalso. destruct P as (A & B & _). destruct C; contradiction.
Qed.
Lemma up_inv d l e : leads root d (lit ".." :: l) e -> is_dir root d /\ leads root (removelast d) l e.
Proof.
  intros H. remember (lit ".." :: l) as m eqn:E. destruct H as [d|d c' l' e D C' H|d l' e D H|d c' l' e n P St NL H|d c' l' e tg P St H];
    try discriminate.
  - injection E as E ->. exfalso. subst c'. destruct C'; discriminate.
  - injection E as ->. auto.
  - injection E as E ->. exfalso. subst c'. destruct P as (_ & _ & A). now apply A.
  - injection E as E ->. exfalso. subst c'. destruct P as (_ & _ & A). now apply A.
Qed.
Lemma name_inv d c l e n : proper c -> stored root (d ++ [c]) = Some n -> (forall t, n <> NLink t) ->
  leads root d (c :: l) e -> leads root (d ++ [c]) l e.
Proof.
  intros P St NL H. remember (c :: l) as m eqn:E. destruct H as [d|d c' l' e D C' H|d l' e D H|d c' l' e n' P' St' NL' H|d c' l' e tg P' St' H];
    try discriminate.
  - injection E as E ->. exfalso. subst c'. destruct P as (A & B & _). destruct C'; contradiction.
  - injection E as E ->. exfalso. subst c. destruct P as (_ & _ & A). now apply A.
  - injection E as -> ->. exact H.
  - injection E as -> ->. exfalso. rewrite St in St'. injection St' as ->. now apply (NL tg).
Qed.
(** A plain beginning determines what follows. *)
Lemma leads_after d l m e f : leads_plainly root d l e -> leads root d (l ++ m) f -> leads root e m f.
Proof.
  intros W. revert f. induction W as [|d c l e D C _ IH|d l e D _ IH|d c l e n P St NL _ IH]; intros f H.
  - exact H.
  - apply IH. exact (stay_inv _ _ _ _ C H).
  - apply IH. apply (up_inv _ _ _ H).
  - apply IH. exact (name_inv _ _ _ _ _ P St NL H).
Qed.
Lemma leads_names d t l e : leads root d (t ++ l) e -> ~ In (lit "..") l -> leads root d (t ++ names l) e.
Proof.
  intros H. remember (t ++ l) as m eqn:E. revert t l E.
  induction H as [d|d c m e D C H IH|d m e D H IH|d c m e n P St NL H IH|d c m e tg P St H IH]; intros t l E N.
  - symmetry in E. apply app_eq_nil in E as (-> & ->). constructor.
  - destruct t as [|x t]; cbn [app] in E |- *.
    + subst l. rewrite names_stay by auto. apply (IH [] m eq_refl). intros I. apply N. now right.
    + injection E as <- ->. apply leads_stay; auto.
  - destruct t as [|x t]; cbn [app] in E |- *.
    + subst l. exfalso. apply N. now left.
    + injection E as <- ->. apply leads_up; auto.
  - destruct t as [|x t]; cbn [app] in E |- *.
    + subst l. destruct P as (A & B & C). rewrite names_keep by auto. apply leads_name with n; auto; [now split|].
      apply (IH [] m eq_refl). intros I. apply N. now right.
    + injection E as <- ->. apply leads_name with n; auto.
  - destruct t as [|x t]; cbn [app] in E |- *.
    + subst l. destruct P as (A & B & C). rewrite names_keep by auto. apply leads_link with tg; auto; [now split|].
      apply (IH tg m eq_refl). intros I. apply N. now right.
    + injection E as <- ->. apply leads_link with tg; auto. rewrite app_assoc. apply IH; auto. now rewrite app_assoc.
Qed.

(** Real directories. *)
Lemma stored_app n p q : stored n (p ++ q) = match stored n p with Some m => stored m q | None => None end.
Proof.
  revert n. induction p as [|c p IH]; intros n; [reflexivity|]. cbn [app stored]. destruct n as [t|es|t]; auto.
  destruct (entry c es); auto.
Qed.
Lemma dir_prefix p q : is_dir root (p ++ q) -> is_dir root p.
Proof.
  intros (es & H). rewrite stored_app in H. destruct (stored root p) as [m|] eqn:E; [|discriminate].
  destruct q as [|c q]; [cbn in H; injection H as ->; now exists es|]. cbn [stored] in H.
  destruct m as [t|fs|t]; try discriminate. now exists fs.
Qed.
Lemma down_plainly p q : is_dir root (p ++ q) -> Forall proper q -> leads_plainly root p q (p ++ q).
Proof.
  intros D H. revert p D. induction H as [|c q P _ IH]; intros p D; [rewrite app_nil_r; constructor|].
  destruct (dir_prefix (p ++ [c]) q) as (es & E); [now rewrite <- app_assoc|].
  apply plainly_name with (NDir es); auto; [discriminate|].
  replace (p ++ c :: q) with ((p ++ [c]) ++ q) by now rewrite <- app_assoc. apply IH. now rewrite <- app_assoc.
Qed.
Lemma plainly_leads d l e m f : leads_plainly root d l e -> leads root e m f -> leads root d (l ++ m) f.
Proof.
  intros W. revert m f. induction W; intros m f K; cbn [app]; eauto using leads_stay, leads_up, leads_name.
Qed.
Lemma removelast_prefix {A} (d : list A) : exists q, d = removelast d ++ q.
Proof.
  destruct d as [|x d] using rev_ind; [now exists []|]. rewrite removelast_last. now exists [x].
Qed.
Lemma plainly_dir d l e : leads_plainly root d l e -> Forall proper d -> is_dir root e -> Forall proper e.
Proof.
  induction 1 as [|d c l e D C _ IH|d l e D _ IH|d c l e n P St NL _ IH]; intros F K; auto.
  - apply IH; auto. destruct (removelast_prefix d) as (q & E). rewrite E in F. apply Forall_app in F. apply F.
  - apply IH; auto. apply Forall_app. split; auto.
Qed.

(** The lexical path leads where the path leads. *)
Lemma lexical_leads d l e : is_dir root d -> Forall proper d ->
  (forall before after, l = before ++ lit ".." :: after -> exists x, leads_plainly root d before x) ->
  leads root d l e -> Forall proper (climb (names l) d) /\ leads root [] (climb (names l) d) e.
Proof.
  intros D F H L.
  assert (K : exists pre post x, l = pre ++ post /\ ~ In (lit "..") post /\
            climb (names pre) d = x /\ is_dir root x /\ Forall proper x /\ leads root x post e).
  { destruct (in_dec (list_eq_dec N.eq_dec) (lit "..") l) as [I|I].
    - assert (G : exists b a, l = b ++ lit ".." :: a /\ ~ In (lit "..") a).
      { clear - I. induction l as [|c l IH]; [destruct I|].
        destruct (in_dec (list_eq_dec N.eq_dec) (lit "..") l) as [J|J].
        - destruct (IH J) as (b & a & -> & N). now exists (c :: b), a.
        - destruct I as [->|I]; [|contradiction]. now exists [], l. }
      destruct G as (b & a & E & N). destruct (H b a E) as (x & W). rewrite E in L.
      pose proof (leads_after _ _ _ _ _ W L) as U.
      assert (V : is_dir root x /\ leads root (removelast x) a e).
      { exact (up_inv _ _ _ U). }
      destruct V as (V1 & V2). exists (b ++ [lit ".."]), a, (removelast x). split; [now rewrite <- app_assoc|].
      split; auto. split; [|split; [|split]]; auto.
      + rewrite names_app. unfold climb. rewrite fold_left_app. fold (climb (names b) d).
        now rewrite <- (plainly_lexical _ _ _ W).
      + destruct (removelast_prefix x) as (q & Ex). rewrite Ex in V1. now apply dir_prefix in V1.
      + pose proof (plainly_dir _ _ _ W F V1) as Px. destruct (removelast_prefix x) as (q & Ex). rewrite Ex in Px.
        apply Forall_app in Px. apply Px.
    - exists [], l, d. repeat split; auto. }
  destruct K as (pre & post & x & -> & N & C & Dx & Px & Lx).
  rewrite names_app. unfold climb. rewrite fold_left_app. fold (climb (names pre) d). rewrite C.
  fold (climb (names post) x). pose proof (names_no_up post N) as Pp. rewrite climb_names by auto. split.
  - now apply Forall_app.
  - apply plainly_leads with x; [exact (down_plainly [] x Dx Px)|]. apply (leads_names x [] post e); auto.
Qed.
End Tree.

(** ** Texts *)
Lemma components_names t l : parts t l -> components t = names l.
Proof. intros H. unfold components. now rewrite (parts_split _ _ H). Qed.
Lemma rooted_start t l d : parts t l -> (if rooted t then [] else d) = start l d.
Proof.
  intros (-> & N & H). destruct l as [|c [|x l]]; [congruence| |].
  - cbn [slashed start]. destruct c as [|y c]; auto. cbn [rooted]. rewrite (proj2 (N.eqb_neq y 47%N)); auto.
    intros ->. apply (H (47%N :: c)); now left.
  - cbn [slashed start]. destruct c as [|y c]; auto. cbn [app rooted]. rewrite (proj2 (N.eqb_neq y 47%N)); auto.
    intros ->. apply (H (47%N :: c)); now left.
Qed.
Lemma normalize_parts t l cwd : parts t l -> normalize_path cwd t = climb (names l) (start l cwd).
Proof. intros H. unfold normalize_path, climb. rewrite (components_names _ _ H). apply f_equal. exact (rooted_start _ _ cwd H). Qed.

Definition no_slash (c : text) : Prop := ~ In 47%N c.
Lemma parts_absolute p : p <> [] -> Forall no_slash p -> parts (absolute_text p) ([] :: p).
Proof.
  intros N H. split; [|split; [discriminate|]].
  - unfold absolute_text. destruct p as [|c p]; [congruence|]. reflexivity.
  - intros c [<-|I]; [intros []|]. rewrite Forall_forall in H. now apply H.
Qed.
Lemma relative_some d p r : relative d p = Some r <-> p = d ++ r.
Proof.
  revert p. induction d as [|x d IH]; intros p; cbn [relative app].
  - split; intros H; [now injection H|now subst].
  - destruct p as [|y p]; [split; discriminate|]. destruct (teqb x y) eqn:E.
    + apply teqb_eq in E. subst y. rewrite IH. split; intros H; [now rewrite H|now injection H].
    + apply teqb_neq in E. split; [discriminate|]. intros H. injection H as <- _. congruence.
Qed.

(** What is printed. *)
Lemma shown_eq cwd p : Forall proper p -> Forall no_slash p ->
  relativize_path cwd (absolute_text p) =
  match relative cwd p with Some r => slashed r | None => absolute_text p end.
Proof.
  intros P H. unfold relativize_path. cbn [absolute_text rooted]. rewrite N.eqb_refl.
  destruct p as [|c p].
  - destruct cwd; reflexivity.
  - rewrite (components_names _ _ (parts_absolute (c :: p) ltac:(discriminate) H)).
    rewrite (names_stay [] (c :: p)) by auto. now rewrite names_proper by auto.
Qed.
Lemma climb_no_slash l d : Forall no_slash l -> Forall no_slash d -> Forall no_slash (climb l d).
Proof.
  intros H. revert d. induction H as [|c l P _ IH]; intros d D; [exact D|]. unfold climb in *. cbn [fold_left]. apply IH.
  unfold absolute_step. destruct (teqb c (lit "..")).
  - destruct (removelast_prefix d) as (q & E). rewrite E in D. apply Forall_app in D. apply D.
  - apply Forall_app. split; auto.
Qed.
Lemma names_in c l : In c (names l) -> In c l.
Proof. unfold names. intros H. now apply filter_In in H. Qed.

Lemma shown_designates root cwd t e :
  is_dir root cwd -> Forall proper cwd -> Forall no_slash cwd -> is_file root e ->
  no_up_after_link root cwd t -> designates_place root cwd t e ->
  designates_place root cwd (relativize_path cwd (absolute_text (normalize_path cwd t))) e.
Proof.
  intros D P S (x & Fe) U (l & Hp & L). set (p := normalize_path cwd t).
  assert (Ds : is_dir root (start l cwd)).
  { destruct l as [|[|y c] [|z l']]; auto. cbn [start]. now apply (dir_prefix root [] cwd). }
  assert (Ps : Forall proper (start l cwd)). { destruct l as [|[|y c] [|z l']]; auto; try constructor. }
  assert (Ss : Forall no_slash (start l cwd)). { destruct l as [|[|y c] [|z l']]; auto; try constructor. }
  assert (Ep : p = climb (names l) (start l cwd)) by exact (normalize_parts t l cwd Hp).
  destruct (lexical_leads root (start l cwd) l e Ds Ps) as (Pp & Lp); auto.
  { intros b a E. exact (U l b a Hp E). }
  rewrite <- Ep in Pp, Lp.
  assert (Sp : Forall no_slash p).
  { rewrite Ep. apply climb_no_slash; auto. apply Forall_forall. intros c I. destruct Hp as (_ & _ & Hp). apply Hp.
    now apply names_in. }
  rewrite shown_eq by auto. destruct (relative cwd p) as [r|] eqn:R.
  - apply relative_some in R. rewrite R in Lp, Pp, Sp. apply Forall_app in Pp as (_ & Pr). apply Forall_app in Sp as (_ & Sr).
    pose proof (leads_after _ _ _ _ _ _ (down_plainly root [] cwd D P) Lp) as Lr. cbn [app] in Lr.
    exists r. split.
    + split; auto. split; [|now apply Forall_forall].
      intros ->. inversion Lr; subst. destruct D as (es & E). rewrite Fe in E. discriminate.
    + replace (start r cwd) with cwd; auto. destruct r as [|[|y c] r']; auto.
      inversion Pr as [|? ? (A & _) _]; subst. congruence.
  - destruct p as [|c p'] eqn:Epp.
    { destruct cwd; [discriminate R|]. inversion Lp; subst. destruct (dir_prefix root [] (t0 :: cwd) D) as (es & E).
      rewrite Fe in E. discriminate. }
    exists ([] :: c :: p'). split; [apply parts_absolute; [discriminate|auto]|]. cbn [start].
    apply leads_stay; auto. now apply (dir_prefix root [] cwd).
Qed.

(** A file found under a directory given on the command line. *)
Lemma slashed_app l m : l <> [] -> m <> [] -> slashed (l ++ m) = slashed l ++ 47%N :: slashed m.
Proof.
  induction l as [|c [|d l] IH]; intros N M; [congruence| |].
  - cbn [app]. destruct m; [congruence|reflexivity].
  - change (slashed ((c :: d :: l) ++ m)) with (c ++ 47%N :: slashed ((d :: l) ++ m)).
    change (slashed (c :: d :: l)) with (c ++ 47%N :: slashed (d :: l)). rewrite IH by (auto; discriminate).
    now rewrite <- app_assoc.
Qed.
Lemma parts_below t l ns : parts t l -> t <> [] -> ns <> [] -> Forall proper ns -> Forall no_slash ns ->
  parts (t ++ 47%N :: slashed ns) (l ++ ns) /\ (forall d, start (l ++ ns) d = start l d).
Proof.
  intros (-> & N & H) T M P Sn. split.
  - split; [now rewrite slashed_app|]. split; [destruct l; [congruence|discriminate]|].
    intros c I. apply in_app_or in I as [I|I]; auto. rewrite Forall_forall in Sn. now apply Sn.
  - intros d. destruct l as [|[|y c] [|z l]]; try congruence; try reflexivity.
    exfalso. now apply T.
Qed.
Lemma normalize_below cwd t ns : t <> [] -> ns <> [] -> Forall proper ns -> Forall no_slash ns ->
  normalize_path cwd (t ++ 47%N :: slashed ns) = normalize_path cwd t ++ ns.
Proof.
  intros T M P Sn. pose proof (parts_ex t) as Hp. destruct (parts_below t _ ns Hp T M P Sn) as (Hq & E).
  etransitivity; [exact (normalize_parts _ _ cwd Hq)|].
  rewrite (normalize_parts _ _ cwd Hp), E, names_app. unfold climb.
  rewrite fold_left_app. rewrite (names_proper ns P). now apply climb_names.
Qed.
Lemma up_below root cwd t ns : t <> [] -> ns <> [] -> Forall proper ns -> Forall no_slash ns ->
  no_up_after_link root cwd t -> no_up_after_link root cwd (t ++ 47%N :: slashed ns).
Proof.
  intros T M P Sn U l b a Hl E. pose proof (parts_ex t) as Hp.
  destruct (parts_below t _ ns Hp T M P Sn) as (Hq & Es).
  assert (El : l = split_on 47%N t ++ ns) by (rewrite <- (parts_split _ _ Hl); now apply parts_split).
  rewrite El, Es. apply (f_equal (fun x => x)) in E. rewrite El in E.
  assert (G : exists a', split_on 47%N t = b ++ lit ".." :: a').
  { clear - E P. revert b E. induction (split_on 47%N t) as [|c m IH]; intros b E.
    - exfalso. cbn [app] in E. rewrite E in P. apply Forall_app in P as (_ & P). inversion P as [|? ? (_ & _ & X) _].
      now apply X.
    - destruct b as [|y b]; cbn [app] in E.
      + exists m. injection E as -> _. reflexivity.
      + injection E as -> E. destruct (IH b E) as (a' & ->). now exists a'. }
  destruct G as (a' & G). exact (U _ b a' Hp G).
Qed.

(** Different files get different names. *)
Lemma slashed_inj l m : l <> [] -> m <> [] -> Forall no_slash l -> Forall no_slash m -> slashed l = slashed m -> l = m.
Proof.
  intros N M A B E. rewrite <- (split_slashed l), <- (split_slashed m), E; auto; now apply Forall_forall.
Qed.
Lemma shown_distinct cwd p q :
  Forall proper p -> Forall no_slash p -> Forall proper q -> Forall no_slash q -> p <> cwd -> q <> cwd ->
  relativize_path cwd (absolute_text p) = relativize_path cwd (absolute_text q) -> p = q.
Proof.
  intros P Sp Q Sq Np Nq. rewrite !shown_eq by auto.
  assert (X : forall r, r <> [] -> Forall proper r -> Forall no_slash r -> forall z, slashed r = absolute_text z -> False).
  { intros r Nr Pr Sr z E. destruct r as [|[|y c] r]; [congruence| |].
    - inversion Pr as [|? ? (A & _) _]; subst. congruence.
    - assert (y = 47%N) by (destruct r; cbn in E; now injection E). subst y.
      inversion Sr as [|? ? A _]; subst. apply A. now left. }
  destruct (relative cwd p) as [r|] eqn:R; destruct (relative cwd q) as [s|] eqn:T.
  - apply relative_some in R, T. subst p q. intros E. f_equal.
    apply Forall_app in Sp as (_ & Sr), Sq as (_ & Ss). apply slashed_inj; auto; intros ->; rewrite app_nil_r in *; congruence.
  - apply relative_some in R. subst p. intros E. exfalso. apply (X r) with q; auto.
    + intros ->. rewrite app_nil_r in Np. congruence.
    + now apply Forall_app in P as (_ & P).
    + now apply Forall_app in Sp as (_ & Sp).
  - apply relative_some in T. subst q. intros E. exfalso. apply (X s) with p; auto.
    + intros ->. rewrite app_nil_r in Nq. congruence.
    + now apply Forall_app in Q as (_ & Q).
    + now apply Forall_app in Sq as (_ & Sq).
  - intros E. apply (f_equal (@tl _)) in E. cbn [absolute_text tl] in E. rewrite !slash_join_slashed in E.
    destruct p as [|c p], q as [|d q]; auto.
    + exfalso. inversion Q as [|? ? (A & _) _]; subst. destruct d; [congruence|]. destruct q; discriminate E.
    + exfalso. inversion P as [|? ? (A & _) _]; subst. destruct c; [congruence|]. destruct p; discriminate E.
    + apply slashed_inj; auto; discriminate.
Qed.
(** Names are made relative twice (check.rs, then output_format.rs): nothing changes. *)
Lemma shown_twice cwd p : Forall proper p -> Forall no_slash p -> Forall proper cwd ->
  relativize_path cwd (relativize_path cwd (absolute_text p)) = relativize_path cwd (absolute_text p).
Proof.
  intros P Sp C. rewrite (shown_eq cwd p) by auto. destruct (relative cwd p) as [r|] eqn:R.
  - apply relative_some in R. subst p. apply Forall_app in P as (_ & Pr). apply Forall_app in Sp as (_ & Sr).
    unfold relativize_path. replace (rooted (slashed r)) with false; auto.
    destruct r as [|[|y c] r]; auto.
    + inversion Pr as [|? ? (A & _) _]; subst. congruence.
    + inversion Sr as [|? ? A _]; subst.
      assert (E : N.eqb y 47%N = false) by (apply N.eqb_neq; intros ->; apply A; now left).
      symmetry. destruct r; exact E.
  - rewrite shown_eq, R; auto.
Qed.
