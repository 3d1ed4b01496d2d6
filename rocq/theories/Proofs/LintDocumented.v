(** The rules make the documented replacements. *)
From Verif Require Import Spec.RDocumented Proofs.TextProofs Proofs.RulesProofs.

Definition makes (n : text) (fs : list frame) (e : expr) (fs' : list frame) (e' new : expr) : Prop :=
  exists rule, In (n, rule) rewriting_rules /\ rule fs e = Some (mk_report fs' e' (Some (toks new))).

Lemma same_text_refl : forall t, same_text t t = true.
Proof. intro t; unfold same_text; destruct (list_eq_dec tok_eq_dec t t); congruence. Qed.

Ltac pick := first [left; reflexivity | right; pick].
Ltac rule_of := unfold makes; eexists; split; [unfold rewriting_rules; pick | cbv beta].
Ltac names :=
  repeat match goal with
  | H : called _ _ |- _ => destruct H as [ -> | [? [? ->]] ]
  | H : one _ |- _ => destruct H as [ -> | -> ]
  | H : two _ |- _ => destruct H as [ -> | -> ]
  | H : quoted_string _ |- _ => destruct H as [? ->]
  | H : condition _ |- _ => destruct H as [ [? [? ->]] | [? ->] ]
  | H : expectation _ _ _ _ |- _ => inversion H; subst; clear H
  | H : In _ (_ :: _) |- _ => destruct H as [H | H]
  | H : In _ [] |- _ => destruct H
  | H : (_, _) = (_, _) |- _ => injection H as <- <-
  | H : ?x = _ |- _ => is_var x; subst x
  | H : _ = ?x |- _ => is_var x; subst x
  end.
Ltac crunch :=
  cbv -[toks args_toks same_text sep arg_toks app filter find existsb firstn skipn length nth_error map];
  rewrite ?same_text_refl.
Ltac done_ := solve [reflexivity | cbv -[same_text toks]; rewrite ?same_text_refl; reflexivity].

Lemma composed_makes : forall outer inner fs e fs' e' args,
  composed outer inner fs e fs' e' args ->
  get_nested_functions_content fs e outer inner = Some (args_toks args, (fs', e')).
Proof.
  intros outer inner fs e fs' e' args H; destruct H; unfold get_nested_functions_content;
    try (subst e); names; cbn [get_function_name];
    rewrite teqb_refl; cbn [negb nested_content find is_unnamed fst pos get_function_name existsb];
    rewrite ?teqb_refl; try reflexivity.
Qed.

Lemma composed_makes_call : forall outer inner fs f g args,
  get_function_name f = outer -> called inner g ->
  let e := ECall f [pos (ECall g args)] in
  get_nested_functions_content fs e outer inner = Some (args_toks args, (fs, e)).
Proof.
  intros outer inner fs f g args Hf Hg e; subst e; unfold get_nested_functions_content.
  rewrite Hf, teqb_refl. destruct Hg as [ -> | [? [? ->]] ];
  cbn [negb nested_content find is_unnamed fst pos get_function_name]; rewrite teqb_refl; reflexivity.
Qed.

Lemma not_constant_na : forall x, not_constant x ->
  is_na_text x = false /\ is_null_lit x = false /\ is_nan_lit x = false /\
  (x <> EAtom ATrue /\ x <> EAtom AFalse).
Proof.
  intros x H; destruct x as [a| | | | | | | | | | | |]; try (repeat split; try reflexivity; discriminate).
  destruct a as [n|t|t| | | |t|p i n|t]; cbn in H; try tauto; try (repeat split; try reflexivity; discriminate).
  repeat split; try reflexivity; try discriminate.
  unfold is_na_text. destruct (existsb (teqb n) na_names) eqn:E; [|reflexivity].
  apply existsb_exists in E; destruct E as [m [Hm E]]; apply teqb_eq in E; subst m; contradiction.
Qed.
Lemma na_literal_na : forall v, na_literal v -> is_na_text v = true.
Proof.
  intros v [t [-> H]]; cbn [is_na_text]; apply existsb_exists; exists t; split; [exact H|apply teqb_refl].
Qed.

Lemma makes_equals_na : forall fs b x v e, compared b x v e -> na_literal v -> not_constant x ->
  makes (lit "equals_na") fs e fs e (negate b (call (lit "is.na") [pos x])).
Proof.
  intros fs b x v e H Hv Hx; rule_of. apply na_literal_na in Hv. apply not_constant_na in Hx as [Hx _].
  destruct H; unfold equals_na; cbn [equality is_in andb];
    rewrite ?teqb_refl, ?Hv, ?Hx; reflexivity.
Qed.
Lemma makes_equals_null : forall fs b x v e, compared b x v e -> v = EAtom ANull -> not_constant x ->
  makes (lit "equals_null") fs e fs e (negate b (call (lit "is.null") [pos x])).
Proof.
  intros fs b x v e H Hv Hx; rule_of. apply not_constant_na in Hx as [_ [Hx _]].
  assert (Hn : is_null_lit v = true) by (rewrite Hv; reflexivity). clear Hv.
  destruct H; unfold equals_null; cbn [equality is_in andb];
    rewrite ?teqb_refl, ?Hx, ?Hn; reflexivity.
Qed.
Lemma makes_equals_nan : forall fs b x v e, compared b x v e -> v = EAtom (AOther (lit "NaN")) -> not_constant x ->
  makes (lit "equals_nan") fs e fs e (negate b (call (lit "is.nan") [pos x])).
Proof.
  intros fs b x v e H Hv Hx; rule_of. apply not_constant_na in Hx as [_ [_ [Hx _]]].
  assert (Hn : is_nan_lit v = true) by (rewrite Hv; reflexivity). clear Hv.
  destruct H; unfold equals_nan; cbn [equality is_in andb];
    rewrite ?teqb_refl, ?Hx, ?Hn; reflexivity.
Qed.

Lemma makes_na_in : forall fs nl t x, let e := EBin (BSpecial (lit "%in%")) nl (EAtom (ANa t)) x in
  not_constant x -> makes (lit "any_is_na_2") fs e fs e (call (lit "anyNA") [pos x]).
Proof.
  intros fs nl t x e H; rule_of. subst e; unfold any_is_na_2; rewrite teqb_refl.
  destruct x as [[]| | | | | | | | | | | |]; try reflexivity; destruct H.
Qed.
Lemma makes_not_all_equal : forall fs f args, called (lit "all.equal") f ->
  let e := ECall f args in
  match fs with FUn _ :: _ => False | _ => True end ->
  makes (lit "all_equal") (FUn UNot :: fs) e fs (EUn UNot e) (EUn UNot (call (lit "isTRUE") [pos e])).
Proof.
  intros fs f args Hf e H; rule_of. subst e. unfold all_equal.
  replace (get_nested_functions_content _ _ _ _) with (@None (list tok * (list frame * expr))).
  - names; cbn [get_function_name]; rewrite teqb_refl; destruct fs as [|[] fs]; try reflexivity; destruct H.
  - unfold get_nested_functions_content. names; reflexivity.
Qed.
Lemma makes_class_equals : forall c fs b f x s e, condition c -> called (lit "class") f -> quoted_string s ->
  compared b (ECall f [pos x]) s e ->
  makes (lit "class_equals") (c :: fs) e (c :: fs) e (negate b (call (lit "inherits") [pos x; pos s])).
Proof.
  intros c fs b f x s e Hc Hf [t ->] H; rule_of. unfold class_equals.
  remember (EAtom (AStr t)) as s; remember (ECall f [pos x]) as y.
  assert (Hy : is_class_call y = true /\ first_arg_text y = Some (toks x) /\ is_class_call s = false
               /\ is_string y = false /\ is_string s = true /\ toks s = [TAtom (AStr t)]).
  { subst; repeat split; names; reflexivity. }
  destruct Hy as (H1 & H2 & H3 & H4 & H5 & H6).
  destruct H; cbn [equality]; rewrite ?teqb_refl; destruct Hc as [ [? [? ->]] | [? ->] ];
    cbn [parent_is_condition]; unfold extract_class_and_string; rewrite ?H1, ?H2, ?H3, ?H4, ?H5;
    cbn [andb option_map]; rewrite ?H6, Heqs; reflexivity.
Qed.
Lemma not_named_find : forall n args, not_named n args -> find (has_name n) args = None.
Proof.
  intros n args H; induction args as [|[[m|] v] args IH]; [reflexivity| |].
  - cbn [find]. unfold has_name at 1; cbn [fst].
    destruct (teqb m n) eqn:E; [apply teqb_eq in E; subst m; exfalso; exact (H v (or_introl eq_refl))|].
    apply IH; intros w Hw; exact (H w (or_intror Hw)).
  - apply IH; intros w Hw; exact (H w (or_intror Hw)).
Qed.
Lemma makes_lengths : forall fs f n x more,
  In n [lit "sapply"; lit "vapply"; lit "map_dbl"; lit "map_int"] -> called n f ->
  not_named (lit "FUN") more -> not_named (lit "x") more ->
  let e := ECall f (pos x :: pos (EAtom (AId (lit "length"))) :: more) in
  makes (lit "lengths") fs e fs e (call (lit "lengths") [pos x]).
Proof.
  intros fs f n x more Hn Hf H1 H2 e; rule_of; subst e; unfold lengths_rule.
  replace (negb _) with false.
  - unfold get_arg_by_name_then_position, get_arg_by_name. cbn [find has_name pos fst].
    rewrite (not_named_find _ _ H1), (not_named_find _ _ H2).
    unfold get_unnamed_arg_by_position. cbn [get_unnamed_args filter fst pos nth_error Nat.sub].
    replace (same_text _ _) with true by reflexivity. reflexivity.
  - symmetry; apply Bool.negb_false_iff. apply existsb_exists; exists n; split; [exact Hn|].
    destruct Hf as [ -> | [? [? ->]] ]; apply teqb_refl.
Qed.
Lemma not_named_exists : forall n args, not_named n args -> existsb (has_name n) args = false.
Proof.
  intros n args H; destruct (existsb (has_name n) args) eqn:E; [|reflexivity].
  apply existsb_exists in E; destruct E as [a [Ha E]].
  assert (F := find_none _ _ (not_named_find _ _ H) a Ha). congruence.
Qed.
Lemma makes_sample_int : forall fs f o nl n a args, called (lit "sample") f -> one o ->
  not_named (lit "n") (a :: args) ->
  let e := ECall f (pos (EBin BColon nl o n) :: a :: args) in
  makes (lit "sample_int") fs e fs e (call (lit "sample.int") (pos n :: a :: args)).
Proof.
  intros fs f o nl n a args Hf Ho H e; rule_of; subst e; unfold sample_int.
  replace (negb (teqb (get_function_name f) (lit "sample"))) with false by (names; reflexivity).
  unfold get_arg_by_name_then_position, get_arg_by_name, drop_arg_by_name_or_position.
  remember (a :: args) as l. cbn [find has_name pos fst existsb orb].
  rewrite (not_named_find _ _ H), (not_named_exists _ _ H).
  unfold get_unnamed_arg_by_position. cbn [get_unnamed_args filter fst pos nth_error Nat.sub firstn skipn app].
  replace (is_one o) with true by (names; reflexivity). cbn [negb].
  replace (length l =? length (pos (EBin BColon nl o n) :: l)) with false
    by (symmetry; apply Nat.eqb_neq; cbn [length]; lia).
  cbn [ok]. do 3 f_equal. cbn [toks call]. unfold call_text, id_tok. f_equal. f_equal. f_equal.
  subst l. reflexivity.
Qed.

Lemma filter_all : forall (A : Type) (k : A -> bool) l, (forall x, In x l -> k x = true) -> filter k l = l.
Proof.
  intros A k l; induction l as [|x l IH]; intro H; [reflexivity|].
  cbn [filter]; rewrite (H x (or_introl eq_refl)); f_equal; apply IH; intros y Hy; apply H; right; exact Hy.
Qed.
Lemma makes_grepv : forall fs f args, called (lit "grep") f -> not_named (lit "value") args ->
  let e := ECall f (args ++ [named (lit "value") (EAtom ATrue)]) in
  makes (lit "grepv") fs e fs e (call (lit "grepv") args).
Proof.
  intros fs f args Hf H e; rule_of; subst e; unfold grepv.
  replace (teqb (get_function_name f) (lit "grep")) with true by (names; reflexivity).
  assert (E : forall l, existsb (has_name (lit "value")) (l ++ [named (lit "value") (EAtom ATrue)]) = true).
  { intro l; rewrite existsb_app. apply Bool.orb_true_intro; right; reflexivity. }
  replace (is_argument_present _ _ _) with true.
  - cbn [andb]. unfold drop_arg_by_name_or_position. rewrite E.
    rewrite filter_app. cbn [filter]. rewrite filter_all.
    + change (has_name (lit "value") (named (lit "value") (EAtom ATrue))) with true.
      cbn [negb]. rewrite app_nil_r. reflexivity.
    + intros x Hx; apply Bool.negb_true_iff. exact (find_none _ _ (not_named_find _ _ H) x Hx).
  - symmetry. unfold is_argument_present, get_arg_by_name_then_position, get_arg_by_name.
    destruct (find _ _) eqn:F; [reflexivity|].
    assert (G := find_none _ _ F (named (lit "value") (EAtom ATrue))). 
    assert (In (named (lit "value") (EAtom ATrue)) (args ++ [named (lit "value") (EAtom ATrue)]))
      by (apply in_or_app; right; left; reflexivity).
    specialize (G H0). discriminate.
Qed.
Lemma sep_app : forall s l l', l <> [] -> l' <> [] -> sep s (l ++ l') = sep s l ++ s ++ sep s l'.
Proof.
  intros s l l' Hl Hl'; induction l as [|x l IH]; [congruence|].
  destruct l as [|y l].
  - cbn [app]. destruct l'; [congruence|reflexivity].
  - assert (E := IH ltac:(discriminate)).
    transitivity (x ++ s ++ sep s ((y :: l) ++ l')); [reflexivity|].
    rewrite E. transitivity ((x ++ s ++ sep s (y :: l)) ++ s ++ sep s l'); [|reflexivity].
    rewrite !app_assoc. reflexivity.
Qed.
Lemma makes_system_file : forall fs f a args pk, called (lit "system.file") f ->
  (forall n, ~ In (n, None) (a :: args)) ->
  let e := ECall f [pos (call (lit "file.path") (a :: args)); named (lit "package") pk] in
  makes (lit "system_file") fs e fs e
    (call (lit "system.file") ((a :: args) ++ [named (lit "package") pk])).
Proof.
  intros fs f a args pk Hf H e; rule_of; subst e; unfold system_file.
  replace (teqb (get_function_name f) (lit "system.file")) with true by (names; reflexivity).
  cbn [get_unnamed_args filter pos named fst is_file_path snd call].
  rewrite teqb_refl. unfold pos at 1, call at 1. cbv iota beta.
  rewrite filter_all by (intros [n [v|]] Hx; [reflexivity|destruct (H n Hx)]).
  do 3 f_equal.
  change (toks (call (lit "system.file") ((a :: args) ++ [named (lit "package") pk])))
    with (call_text (lit "system.file") (args_toks ((a :: args) ++ [named (lit "package") pk]))).
  unfold args_toks. rewrite map_app, sep_app by discriminate. reflexivity.
Qed.
Lemma makes_repeat_one : forall fs b, let e := EWhile (EAtom ATrue) b in
  match b with EBraces _ => False | _ => True end ->
  makes (lit "repeat") fs e fs e (ERepeat (EBraces [b])).
Proof.
  intros fs b e H; rule_of; subst e. destruct b; try reflexivity. destruct H.
Qed.
Lemma makes_matrix_apply : forall fs f x m row g mean more, called (lit "apply") f ->
  (if row : bool then one m else two m) ->
  g = EAtom (AId (if mean : bool then lit "mean" else lit "sum")) ->
  (more = [] \/ exists v, more = [named (lit "na.rm") v]) ->
  let e := ECall f ([pos x; pos m; pos g] ++ more) in
  makes (lit "matrix_apply") fs e fs e
    (call (if row then if mean then lit "rowMeans" else lit "rowSums"
           else if mean then lit "colMeans" else lit "colSums") (pos x :: more)).
Proof.
  intros fs f x m row g mean more Hf Hm -> Hmore e; rule_of; subst e.
  destruct row, mean; cbv iota in Hm; names; destruct Hmore as [ -> | [v ->] ];
    solve [done_ | match goal with |- context [toks (call ?n _)] =>
      change (toks (call n [pos x])) with (call_text n (toks x)); rewrite <- (app_nil_r (toks x)); done_ end].
Qed.
Lemma makes_leading_zero : forall fs a b, Forall (fun c => (48 <= c <= 57)%N) (b :: a) ->
  let e := EAtom (ANum (lit "." ++ a ++ [b])) in
  makes (lit "numeric_leading_zero") fs e fs e (EAtom (ANum (lit "0." ++ a ++ [b]))).
Proof.
  intros fs a b H e; rule_of; subst e. unfold numeric_leading_zero.
  replace (is_integer_lit _) with false.
  - reflexivity.
  - unfold is_integer_lit, last_char. rewrite app_assoc, rev_app_distr. cbn [rev app nth_error].
    inversion H; subst. symmetry. unfold ceqb. apply N.eqb_neq. lia.
Qed.
Lemma makes_outer_negation : forall fs n n' x,
  In (n, n') [(lit "any", lit "all"); (lit "all", lit "any")] ->
  match x with EUn _ _ => False | _ => True end ->
  match fs with FUn UNot :: _ => False | _ => True end ->
  let e := call n [pos (EUn UNot x)] in
  makes (lit "outer_negation") fs e fs e (EUn UNot (call n' [pos x])).
Proof.
  intros fs n n' x Hn Hx Hfs e; rule_of; subst e. unfold outer_negation.
  replace (parent_is_bang_unary fs) with false
    by (destruct fs as [|f fs]; [reflexivity|]; destruct f; try reflexivity; destruct u; try reflexivity; destruct Hfs).
  names; destruct x; try reflexivity; destruct Hx.
Qed.
Lemma makes_redundant_equals : forall fs b v x e, compared b x v e -> not_constant x ->
  (forall nl, e <> EBin (BSpecial (lit "%in%")) nl x v) ->
  v = EAtom ATrue \/ v = EAtom AFalse ->
  makes (lit "redundant_equals") fs e fs e
    (negate (Bool.eqb b (match v with EAtom ATrue => true | _ => false end)) x).
Proof.
  intros fs b v x e H Hx Hin Hv; rule_of.
  destruct Hv as [ Hv | Hv ]; destruct H; rewrite Hv in *;
    try (exfalso; eapply Hin; reflexivity); unfold redundant_equals;
    destruct x as [[]| | | | | | | | | | | |]; try reflexivity; destruct Hx.
Qed.
Lemma makes_coalesce : forall fs f x y, called (lit "is.null") f ->
  match x with EBraces _ => False | _ => True end -> match y with EBraces _ => False | _ => True end ->
  let e := EIf (ECall f [pos x]) y (Some x) in
  makes (lit "coalesce") fs e fs e (EBin (BSpecial (lit "%||%")) false x y).
Proof.
  intros fs f x y Hf Hx Hy e; rule_of; subst e. unfold coalesce.
  replace (teqb (get_function_name f) (lit "is.null")) with true by (names; reflexivity).
  cbn [given_values flat_map pos snd app].
  assert (Sx : single_expression x = x) by (destruct x; try reflexivity; destruct Hx).
  assert (Sy : single_expression y = y) by (destruct y; try reflexivity; destruct Hy).
  assert (Mx : has_multiple_expressions x = false) by (destruct x; try reflexivity; destruct Hx).
  assert (My : has_multiple_expressions y = false) by (destruct y; try reflexivity; destruct Hy).
  rewrite Sx, same_text_refl, Mx, My, Sy. reflexivity.
Qed.
Lemma makes_coalesce_not : forall fs f x y, called (lit "is.null") f ->
  match x with EBraces _ => False | _ => True end -> match y with EBraces _ => False | _ => True end ->
  let e := EIf (EUn UNot (ECall f [pos x])) (EBraces [x]) (Some (EBraces [y])) in
  makes (lit "coalesce") fs e fs e (EBin (BSpecial (lit "%||%")) false x y).
Proof.
  intros fs f x y Hf Hx Hy e; rule_of; subst e. unfold coalesce.
  replace (teqb (get_function_name f) (lit "is.null")) with true by (names; reflexivity).
  cbn [given_values flat_map pos snd app].
  cbn [single_expression]. rewrite same_text_refl. reflexivity.
Qed.
Lemma makes_unnecessary_nesting : forall fs a b t,
  let e := EIf a (EBraces [EIf b t None]) None in
  makes (lit "unnecessary_nesting") fs e fs e (EIf (EBin BAnd2 false (grouped a) (grouped b)) t None).
Proof.
  intros fs a b t e; rule_of; subst e. unfold unnecessary_nesting, fixed_as.
  assert (G : forall c, in_parens c = toks (grouped c)) by (intros [[]| | | | | | | | | | | |]; reflexivity).
  rewrite !G. cbn [toks]. rewrite app_nil_r. reflexivity.
Qed.
Lemma makes_true_symbol : forall fs x v, In (x, v) [(lit "T", ATrue); (lit "F", AFalse)] ->
  match fs with
  | (FCallF _ | FExtract _ _ | FBinL BTilde _ _ | FBinR BTilde _ _) :: _ => False
  | _ => True
  end ->
  let e := EAtom (AId x) in
  makes (lit "true_false_symbol") fs e fs e (EAtom v).
Proof.
  intros fs x v Hx Hfs e; rule_of; subst e.
  assert (E : teqb x (lit "T") || teqb x (lit "F") = true /\
              (if teqb x (lit "T") then ATrue else AFalse) = v).
  { names; split; reflexivity. }
  destruct E as [E1 E2]. unfold true_false_symbol. rewrite E1, E2.
  destruct fs as [|f fs]; [reflexivity|]. destruct f; try reflexivity; try destruct Hfs; 
    destruct o; try reflexivity; destruct Hfs.
Qed.

Lemma makes_starts_with : forall fs f n b x o stop s e,
  In n [lit "substr"; lit "substring"] -> called n f -> one o ->
  compared b (ECall f [pos x; pos o; pos stop]) s e -> not_a_call s ->
  (forall nl, e <> EBin (BSpecial (lit "%in%")) nl (ECall f [pos x; pos o; pos stop]) s) ->
  makes (lit "string_boundary") fs e fs e (negate b (call (lit "startsWith") [pos x; pos s])).
Proof.
  intros fs f n b x o stop s e Hn Hf Ho H Hs Hin; rule_of.
  assert (Hm : mem (get_function_name f) [lit "substr"; lit "substring"] = true).
  { destruct Hf as [ -> | [? [? ->]] ]; apply mem_iff; exact Hn. }
  assert (H1 : is_literal_one o = true) by (destruct Ho as [ -> | -> ]; reflexivity).
  clear Hf Ho.
  inversion H; subst; try (exfalso; eapply Hin; reflexivity); unfold string_boundary, pos; cbv zeta.
  1,3: rewrite Hm, H1; reflexivity.
  all: destruct s; try (cbv iota; rewrite Hm, H1; reflexivity); destruct Hs.
Qed.
Lemma makes_ends_with : forall fs f n b x start g s e,
  In n [lit "substr"; lit "substring"] -> called n f ->
  called (lit "nchar") g -> match start with EAtom (ANum _) => False | _ => True end ->
  compared b (ECall f [pos x; pos start; pos (ECall g [pos x])]) s e -> not_a_call s ->
  (forall nl, e <> EBin (BSpecial (lit "%in%")) nl (ECall f [pos x; pos start; pos (ECall g [pos x])]) s) ->
  makes (lit "string_boundary") fs e fs e (negate b (call (lit "endsWith") [pos x; pos s])).
Proof.
  intros fs f n b x start g s e Hn Hf Hg Ho H Hs Hin; rule_of.
  assert (Hm : mem (get_function_name f) [lit "substr"; lit "substring"] = true).
  { destruct Hf as [ -> | [? [? ->]] ]; apply mem_iff; exact Hn. }
  assert (H1 : is_literal_one start = false).
  { destruct start as [[]| | | | | | | | | | | |]; try reflexivity; destruct Ho. }
  assert (H2 : is_nchar_of (ECall g [pos x]) x = true).
  { unfold is_nchar_of; cbn [pos]. rewrite same_text_refl.
    destruct Hg as [ -> | [? [? ->]] ]; reflexivity. }
  clear Hf Ho Hg. remember (ECall g [pos x]) as stop.
  inversion H; subst e; try subst b; try (exfalso; eapply Hin; subst; reflexivity); subst; unfold string_boundary; cbv zeta;
    unfold pos at 1 2 3; cbv iota.
  1,3: rewrite Hm, H1, H2; reflexivity.
  all: destruct s; try (cbv iota; unfold pos at 1 2 3; cbv iota; rewrite Hm, H1, H2; reflexivity); destruct Hs.
Qed.

Lemma forallb_drop_quotes : forall k t, forallb k t = true -> forallb k (drop_quotes t) = true.
Proof.
  intros k t; induction t as [|c t IH]; intro H; [reflexivity|].
  cbn [drop_quotes]. destruct (ceqb c 34%N || ceqb c 39%N); [|exact H].
  cbn [forallb] in H; apply Bool.andb_true_iff in H; tauto.
Qed.
Lemma forallb_rev : forall (k : char -> bool) t, forallb k t = true -> forallb k (rev t) = true.
Proof.
  intros k t H; apply forallb_forall; intros x Hx; apply in_rev in Hx.
  exact (proj1 (forallb_forall k t) H x Hx).
Qed.
Lemma fixed_pattern : forall w,
  Forall (fun c => In c (lit "abcdefghijklmnopqrstuvwxyz -_,;:=<>#@!%&~/0123456789")) w ->
  is_fixed_pattern (trim_quotes (lit """" ++ w ++ lit """")) = true.
Proof.
  intros w H. unfold is_fixed_pattern, trim_quotes.
  apply forallb_rev, forallb_drop_quotes, forallb_rev, forallb_drop_quotes.
  rewrite !forallb_app. apply Bool.andb_true_iff; split; [reflexivity|].
  apply Bool.andb_true_iff; split; [|reflexivity].
  apply forallb_forall. rewrite Forall_forall in H. intros c Hc; specialize (H c Hc).
  assert (G : forallb (fun c => negb (existsb (ceqb c) regex_chars))
                (lit "abcdefghijklmnopqrstuvwxyz -_,;:=<>#@!%&~/0123456789") = true) by (vm_compute; reflexivity).
  exact (proj1 (forallb_forall _ _) G c H).
Qed.
Lemma one_more : forall n args m v, args <> [] ->
  toks (call n (args ++ [named m v])) = call_text n (args_toks args ++ TComma :: id_tok m :: TEq :: toks v).
Proof.
  intros n args m v H.
  change (toks (call n (args ++ [named m v]))) with (call_text n (args_toks (args ++ [named m v]))).
  unfold args_toks; rewrite map_app, sep_app; [reflexivity| |discriminate].
  destruct args; [congruence|discriminate].
Qed.
Lemma makes_fixed_regex : forall fs n w x,
  In n [lit "grepl"; lit "grep"; lit "regexpr"; lit "gregexpr"; lit "regexec"] ->
  Forall (fun c => In c (lit "abcdefghijklmnopqrstuvwxyz -_,;:=<>#@!%&~/0123456789")) w ->
  let e := call n [pos (EAtom (AStr (lit """" ++ w ++ lit """"))); pos x] in
  makes (lit "fixed_regex") fs e fs e
    (call n [pos (EAtom (AStr (lit """" ++ w ++ lit """"))); pos x; named (lit "fixed") (EAtom ATrue)]).
Proof.
  intros fs n w x Hn Hw e; rule_of; subst e. apply fixed_pattern in Hw.
  remember (lit """" ++ w ++ lit """") as t; clear Heqt.
  assert (E := one_more n [pos (EAtom (AStr t)); pos x] (lit "fixed") (EAtom ATrue) ltac:(discriminate)).
  cbn [app] in E; rewrite E; clear E.
  unfold fixed_regex, call.
  names; cbv -[is_fixed_pattern trim_quotes toks args_toks app call_text]; rewrite Hw; reflexivity.
Qed.
Lemma makes_fixed_regex_sub : forall fs n w y x, In n [lit "gsub"; lit "sub"] ->
  Forall (fun c => In c (lit "abcdefghijklmnopqrstuvwxyz -_,;:=<>#@!%&~/0123456789")) w ->
  let e := call n [pos (EAtom (AStr (lit """" ++ w ++ lit """"))); pos y; pos x] in
  makes (lit "fixed_regex") fs e fs e
    (call n [pos (EAtom (AStr (lit """" ++ w ++ lit """"))); pos y; pos x; named (lit "fixed") (EAtom ATrue)]).
Proof.
  intros fs n w y x Hn Hw e; rule_of; subst e. apply fixed_pattern in Hw.
  remember (lit """" ++ w ++ lit """") as t; clear Heqt.
  assert (E := one_more n [pos (EAtom (AStr t)); pos y; pos x] (lit "fixed") (EAtom ATrue) ltac:(discriminate)).
  cbn [app] in E; rewrite E; clear E.
  unfold fixed_regex, call.
  names; cbv -[is_fixed_pattern trim_quotes toks args_toks app call_text]; rewrite Hw; reflexivity.
Qed.

(** testthat *)
Lemma not_a_call_named : forall n v, not_a_call v -> is_call_named n v = false.
Proof. intros n []; try reflexivity; intros []. Qed.
Lemma makes_expect_length : forall fs f f' n x v (r : bool), In n [lit "expect_equal"; lit "expect_identical"] ->
  expectation n (lit "expect_length") f f' -> not_a_call v ->
  let e := ECall f (if r then [pos v; pos (call (lit "length") [pos x])]
                    else [pos (call (lit "length") [pos x]); pos v]) in
  makes (lit "expect_length") fs e fs e (ECall f' [pos x; pos v]).
Proof.
  intros fs f f' n x v r Hn Hf Hv e; rule_of; subst e.
  assert (E : is_expect_equal f = true /\ forall c, expect_text f (lit "expect_length") c = toks f' ++ TLp :: c ++ [TRp]).
  { names; split; reflexivity. }
  destruct E as [E1 E2]. unfold expect_length. rewrite E1.
  assert (Hc := not_a_call_named (lit "length") v Hv).
  destruct r.
  - replace (object_expected _) with (Some (v, call (lit "length") [pos x])) by reflexivity.
    cbn [length Nat.ltb Nat.leb]. rewrite Hc.
    change (is_call_named (lit "length") (call (lit "length") [pos x])) with true.
    change (x_of (call (lit "length") [pos x])) with (Some x). cbv iota zeta. rewrite E2. reflexivity.
  - replace (object_expected _) with (Some (call (lit "length") [pos x], v)) by reflexivity.
    cbn [length Nat.ltb Nat.leb]. rewrite Hc.
    change (is_call_named (lit "length") (call (lit "length") [pos x])) with true.
    change (x_of (call (lit "length") [pos x])) with (Some x). cbv iota zeta. rewrite E2. reflexivity.
Qed.
Lemma makes_expect_named : forall fs f f' n x v, In n [lit "expect_equal"; lit "expect_identical"] ->
  expectation n (lit "expect_named") f f' -> not_a_call v \/ (exists args, v = call (lit "c") args) ->
  let e := ECall f [pos (call (lit "names") [pos x]); pos v] in
  makes (lit "expect_named") fs e fs e (ECall f' [pos x; pos v]).
Proof.
  intros fs f f' n x v Hn Hf Hv e; rule_of; subst e.
  assert (E : is_expect_equal f = true /\ forall c, expect_text f (lit "expect_named") c = toks f' ++ TLp :: c ++ [TRp]).
  { names; split; reflexivity. }
  destruct E as [E1 E2]. unfold expect_named. rewrite E1.
  assert (Hc : is_call_named (lit "names") v = false).
  { destruct Hv as [ Hv | [args ->] ]; [exact (not_a_call_named _ _ Hv)|reflexivity]. }
  replace (object_expected _) with (Some (call (lit "names") [pos x], v)) by reflexivity.
  rewrite Hc.
  change (is_call_named (lit "names") (call (lit "names") [pos x])) with true.
  change (x_of (call (lit "names") [pos x])) with (Some x). cbv iota zeta. rewrite E2. reflexivity.
Qed.
Lemma makes_expect_not : forall fs f f' n n' x,
  In (n, n') [(lit "expect_true", lit "expect_false"); (lit "expect_false", lit "expect_true")] ->
  expectation n n' f f' -> match x with EUn UNot _ | EParen _ => False | _ => True end ->
  let e := ECall f [pos (EUn UNot x)] in
  makes (lit "expect_not") fs e fs e (ECall f' [pos x]).
Proof.
  intros fs f f' n n' x Hn Hf Hx e; rule_of; subst e.
  names; (destruct x as [| | [] | | | | | | | | | |]; try reflexivity; destruct Hx).
Qed.
Lemma makes_expect_null : forall fs f f' n x, In n [lit "expect_equal"; lit "expect_identical"] ->
  expectation n (lit "expect_null") f f' ->
  let e := ECall f [pos x; pos (EAtom ANull)] in
  makes (lit "expect_null") fs e fs e (ECall f' [pos x]).
Proof.
  intros fs f f' n x Hn Hf e; rule_of; subst e.
  names; (destruct x as [[]| | | | | | | | | | | |]; reflexivity).
Qed.
Lemma makes_expect_true : forall fs f f' n x v m (r : bool), In n [lit "expect_equal"; lit "expect_identical"] ->
  In (v, m) [(ATrue, lit "expect_true"); (AFalse, lit "expect_false")] -> expectation n m f f' -> not_constant x ->
  let e := ECall f (if r then [pos (EAtom v); pos x] else [pos x; pos (EAtom v)]) in
  makes (lit "expect_true_false") fs e fs e (ECall f' [pos x]).
Proof.
  intros fs f f' n x v m r Hn Hm Hf Hx e; rule_of; subst e.
  names; destruct r; (destruct x as [[]| | | | | | | | | | | |]; try reflexivity; destruct Hx).
Qed.
Lemma unnamed_only : forall more : list arg, (forall a, In a more -> exists n v, a = named n v) ->
  existsb is_unnamed more = false.
Proof.
  intros more H; destruct (existsb is_unnamed more) eqn:E; [|reflexivity].
  apply existsb_exists in E; destruct E as [a [Ha E]]; destruct (H a Ha) as [n [v ->]]; discriminate.
Qed.
Lemma drop_none : forall k (more : list arg), 2 <= k -> drop_indices 0 1 k more = more.
Proof.
  intros k more; revert k; induction more as [|a more IH]; intros k Hk; [reflexivity|].
  cbn [drop_indices]. replace (k =? 0) with false by (symmetry; apply Nat.eqb_neq; lia).
  replace (k =? 1) with false by (symmetry; apply Nat.eqb_neq; lia).
  cbn [orb app]; f_equal; apply IH; lia.
Qed.
Lemma not_named_index : forall n args k, not_named n args -> index_of (has_name n) k args = None.
Proof.
  intros n args k H. assert (F := not_named_find _ _ H). clear H. revert k.
  induction args as [|a args IH]; intro k; [reflexivity|].
  cbn [find] in F; cbn [index_of]; destruct (has_name n a); [discriminate|apply IH, F].
Qed.
Lemma makes_expect_grepl : forall outer new (rule := expect_grepl outer new) fs f f' pat x more,
  expectation outer new f f' ->
  (forall a, In a more -> exists n v, a = named n v) -> not_named (lit "pattern") more -> not_named (lit "x") more ->
  let e := ECall f [pos (call (lit "grepl") (pos pat :: pos x :: more))] in
  rule fs e = Some (mk_report fs e (Some (toks (ECall f' (pos x :: pos pat :: more))))).
Proof.
  intros outer new rule fs f f' pat x more Hf Hm H1 H2 e; subst e rule. unfold expect_grepl, call.
  assert (E : get_function_name f = outer /\
              forall c, expect_text f new c = toks f' ++ TLp :: c ++ [TRp]) by (names; split; reflexivity).
  destruct E as [E1 E2]. rewrite E1, teqb_refl. cbn [negb].
  rewrite (composed_makes_call outer (lit "grepl") fs f (EAtom (AId (lit "grepl"))) (pos pat :: pos x :: more) E1
             (or_introl eq_refl)).
  change (arg_value (get_arg_by_name_then_position
            [pos (ECall (EAtom (AId (lit "grepl"))) (pos pat :: pos x :: more))] (lit "object") 1))
    with (Some (ECall (EAtom (AId (lit "grepl"))) (pos pat :: pos x :: more))).
  cbv iota. cbn [get_function_name]. rewrite teqb_refl.
  unfold arg_index. cbn [index_of has_name pos fst].
  rewrite (not_named_index _ _ _ H1), (not_named_index _ _ _ H2). cbn [Nat.sub index_unnamed is_unnamed pos fst nth_error].
  cbn [drop_indices Nat.eqb orb app]. rewrite drop_none by lia. rewrite unnamed_only by exact Hm.
  cbn [arg_value pos length Nat.ltb Nat.leb]. rewrite E2. reflexivity.
Qed.

Lemma documented_makes : forall n fs e fs' e' new,
  documented n fs e fs' e' new -> makes n fs e fs' e' new.
Proof.
  intros n fs e fs' e' new H; destruct H;
  try (rule_of; unfold any_is_na, any_duplicated, length_levels, which_grepl, all_equal;
       erewrite composed_makes by eassumption; reflexivity).
  all: try solve
    [ eapply makes_na_in; eassumption | eapply makes_not_all_equal; eassumption
    | eapply makes_equals_na; eassumption | eapply makes_equals_null; eassumption
    | eapply makes_equals_nan; eassumption | eapply makes_class_equals; eassumption
    | eapply makes_lengths; eassumption | eapply makes_sample_int; eassumption
    | eapply makes_grepv; eassumption | eapply makes_system_file; eassumption
    | eapply makes_repeat_one; eassumption | eapply makes_matrix_apply; eassumption || reflexivity
    | eapply makes_leading_zero; eassumption | eapply makes_outer_negation; eassumption
    | eapply makes_redundant_equals; eassumption | eapply makes_coalesce; eassumption
    | eapply makes_coalesce_not; eassumption | eapply makes_unnecessary_nesting
    | eapply makes_true_symbol; eassumption | eapply makes_starts_with; eassumption
    | eapply makes_ends_with; eassumption | eapply makes_fixed_regex; eassumption
    | eapply makes_fixed_regex_sub; eassumption
    | eapply (makes_expect_length fs f f' n x v false); eassumption
    | eapply (makes_expect_length fs f f' n x v true); eassumption
    | eapply makes_expect_named; eassumption | eapply makes_expect_not; eassumption
    | eapply makes_expect_null; eassumption
    | eapply (makes_expect_true fs f f' n x v m false); eassumption
    | eapply (makes_expect_true fs f f' n x v m true); eassumption
    | rule_of; eapply makes_expect_grepl; eassumption ].
  all: rule_of; names; done_.
Qed.
