(** What a fix mentions: the tokens of the fix, compared with those of the code it replaces. *)
From Verif Require Export Spec.RSearch Spec.RFix.

(** How many times a token occurs. *)
Fixpoint mentions (t : tok) (ts : list tok) : nat :=
  match ts with
  | [] => 0
  | u :: us => (if tok_eq_dec u t then 1 else 0) + mentions t us
  end.

(** Tokens that say nothing by themselves: [!], parentheses, braces, commas and line breaks. *)
Definition punctuation (t : tok) : bool :=
  match t with TBang | TLp | TRp | TLc | TRc | TComma | TNl => true | _ => false end.

Definition a_name (l : list text) (t : tok) : Prop := exists x, In x l /\ t = TAtom (AId x).
(** [x], or [pkg::x]. *)
Definition a_function (x : text) (t : tok) : Prop := t = TAtom (AId x) \/ exists p, t = TAtom (ANs p false x).

(** What the fixes of each rule may write that was not there. *)
Inductive adds : text -> tok -> Prop :=
| adds_all_equal : forall t, a_name [lit "isTRUE"; lit "all.equal"] t -> adds (lit "all_equal") t
| adds_any_duplicated : forall t,
    a_name [lit "anyDuplicated"] t \/ t = TOp (BCmp CGt) \/ t = TAtom (ANum (lit "0")) -> adds (lit "any_duplicated") t
| adds_any_is_na : forall t, a_name [lit "anyNA"] t -> adds (lit "any_is_na") t
| adds_assignment : forall t, t = TOp BEq \/ t = TOp (BAssign (lit "<-")) -> adds (lit "assignment") t
| adds_class_equals : forall t, a_name [lit "inherits"] t -> adds (lit "class_equals") t
| adds_coalesce : adds (lit "coalesce") (TOp (BSpecial (lit "%||%")))
| adds_comparison_negation : forall c, adds (lit "comparison_negation") (TOp (BCmp c))
| adds_equals_na : forall t, a_name [lit "is.na"] t -> adds (lit "equals_na") t
| adds_equals_nan : forall t, a_name [lit "is.nan"] t -> adds (lit "equals_nan") t
| adds_equals_null : forall t, a_name [lit "is.null"] t -> adds (lit "equals_null") t
| adds_expect_length : forall t, a_function (lit "expect_length") t -> adds (lit "expect_length") t
| adds_expect_match : forall t, a_function (lit "expect_match") t -> adds (lit "expect_match") t
| adds_expect_named : forall t, a_function (lit "expect_named") t -> adds (lit "expect_named") t
| adds_expect_no_match : forall t, a_function (lit "expect_no_match") t -> adds (lit "expect_no_match") t
| adds_expect_not : forall t, a_function (lit "expect_true") t \/ a_function (lit "expect_false") t -> adds (lit "expect_not") t
| adds_expect_null : forall t, a_function (lit "expect_null") t -> adds (lit "expect_null") t
| adds_expect_s3_class : forall t, a_function (lit "expect_s3_class") t -> adds (lit "expect_s3_class") t
| adds_expect_true_false : forall t, a_function (lit "expect_true") t \/ a_function (lit "expect_false") t -> adds (lit "expect_true_false") t
| adds_expect_type : forall t,
    a_function (lit "expect_type") t \/ (exists f k, In (f, k) type_functions /\ t = TAtom (AStr k)) -> adds (lit "expect_type") t
| adds_fixed_regex : forall t,
    a_name [lit "fixed"; lit "grep"; lit "gsub"; lit "sub"; lit "regexpr"; lit "gregexpr"; lit "regexec"; lit "grepl"] t \/
    t = TOp BEq \/ t = TAtom ATrue -> adds (lit "fixed_regex") t
| adds_grepv : forall t, a_name [lit "grepv"] t -> adds (lit "grepv") t
| adds_length_levels : forall t, a_name [lit "nlevels"] t -> adds (lit "length_levels") t
| adds_length_test : forall t, a_name [lit "length"] t -> adds (lit "length_test") t
| adds_lengths : forall t, a_name [lit "lengths"] t -> adds (lit "lengths") t
| adds_list2df : forall t, a_name [lit "list2DF"] t -> adds (lit "list2df") t
| adds_matrix_apply : forall t,
    a_name [lit "rowMeans"; lit "colMeans"; lit "rowSums"; lit "colSums"] t -> adds (lit "matrix_apply") t
| adds_numeric_leading_zero : forall x, adds (lit "numeric_leading_zero") (TAtom (ANum (lit "0." ++ x)))
| adds_outer_negation : forall t, a_name [lit "all"; lit "any"] t -> adds (lit "outer_negation") t
| adds_repeat : adds (lit "repeat") TRepeat
| adds_sample_int : forall t, a_name [lit "sample.int"] t -> adds (lit "sample_int") t
| adds_seq : forall t,
    a_name [lit "seq_along"; lit "seq_len"; lit "nrow"; lit "ncol"; lit "NROW"; lit "NCOL"] t -> adds (lit "seq") t
| adds_seq2 : forall t,
    a_name [lit "seq_along"; lit "seq_len"; lit "nrow"; lit "ncol"; lit "NROW"; lit "NCOL"] t -> adds (lit "seq2") t
| adds_sort : forall t, a_name [lit "sort"] t -> adds (lit "sort") t
| adds_sprintf : forall x, adds (lit "sprintf") (TAtom (AStr x))
| adds_string_boundary : forall t, a_name [lit "startsWith"; lit "endsWith"] t -> adds (lit "string_boundary") t
| adds_system_file : forall t, a_name [lit "system.file"] t -> adds (lit "system_file") t
| adds_true_false_symbol : forall t, t = TAtom ATrue \/ t = TAtom AFalse -> adds (lit "true_false_symbol") t
| adds_unnecessary_nesting : adds (lit "unnecessary_nesting") (TOp BAnd2)
| adds_which_grepl : forall t, a_name [lit "grep"] t -> adds (lit "which_grepl") t.

(** The first argument of the call has no name, or some argument is called [n]. *)
Definition first_or_named (n : text) (e : expr) : Prop :=
  forall f a args, e = ECall f (a :: args) -> fst a = None \/ exists v, In (Some n, v) (a :: args).

(** The variables and functions an expression mentions (the names of arguments are not among them). *)
Fixpoint vars (e : expr) : list text :=
  match e with
  | EAtom (AId x) => [x]
  | EAtom _ => []
  | EParen e | EUn _ e | EExtract e _ _ | ERepeat e => vars e
  | EBin _ _ l r => vars l ++ vars r
  | ECall f args | ESub _ f args =>
      vars f ++ flat_map (fun a : arg => match snd a with Some v => vars v | None => [] end) args
  | EIf c a el => vars c ++ vars a ++ match el with Some b => vars b | None => [] end
  | EFun ps b => flat_map (fun p : param => fst p :: match snd p with Some d => vars d | None => [] end) ps ++ vars b
  | EFor v s b => v :: vars s ++ vars b
  | EWhile c b => vars c ++ vars b
  | EBraces es => flat_map vars es
  end.

(** [$] and [@] are the only operators followed by a name. *)
Definition usual_extracts (ts : list tok) : Prop :=
  forall op x, In (TExtract op x) ts -> op = lit "$" \/ op = lit "@".

(** Rules whose fix keeps every variable, with the functions it may drop. *)
Definition keeping (s : settings) : list (rule_fn * list text) :=
  [ (total any_is_na_2, []); (total (assignment (prefer_arrow s)), []);
    (total coalesce, [lit "is.null"]); (total comparison_negation, []);
    (total equals_na, na_names); (total equals_nan, []); (total equals_null, []);
    (total expect_match, [lit "expect_true"; lit "grepl"]); (total expect_no_match, [lit "expect_false"; lit "grepl"]);
    (total expect_not, [lit "expect_true"; lit "expect_false"]);
    (total is_numeric, [lit "is.integer"]);
    (total list2df, [lit "do.call"; lit "cbind.data.frame"]);
    (total matrix_apply, [lit "apply"; lit "mean"; lit "sum"]);
    (total numeric_leading_zero, []); (total outer_negation, [lit "all"; lit "any"]);
    (total redundant_equals, []); (total redundant_ifelse, [lit "ifelse"; lit "if_else"; lit "fifelse"]);
    (total repeat_loop, []); (total seq_rule, [lit "length"]); (total seq2_rule, [lit "seq"; lit "length"]);
    (total true_false_symbol, [lit "T"; lit "F"]); (total true_false_symbol_for, [lit "T"; lit "F"]);
    (total unnecessary_nesting, []) ].

(** The rule, looking at [e] on its own line, makes a fix from which the variable [x] is gone. *)
Definition drops (rule : rule_fn) (e : expr) (x : text) : Prop :=
  exists r c, rule [] e = ROk [r] /\ at_node r = e /\ new_text r = Some c /\
    In x (vars e) /\ ~ In (TAtom (AId x)) c.
(** For the examples: a variable, a call with unnamed arguments, a call with one more argument that has a name. *)
Definition variable (x : text) : expr := EAtom (AId x).
Definition calling (f : text) (args : list expr) : expr := ECall (variable f) (map (fun a => (None, Some a)) args).
Definition calling_with (f : text) (args : list expr) (n : text) (v : expr) : expr :=
  ECall (variable f) (map (fun a => (None, Some a)) args ++ [(Some n, Some v)]).
