(** The replacements that jarl's documentation promises, rule by rule (the
    "Example" and "Use instead" sections above each rule in
    /repo/crates/jarl-core/src/lints).

    [documented rule fs e fs' e' new]: on the node [e], with the frames [fs]
    around it, the rule called [rule] is documented to replace [e'] (at [fs'])
    by [new]. *)
From Verif Require Export Model.MoreLints.

(** The name of a function, with or without a package. *)
Definition called (n : text) (f : expr) : Prop :=
  f = EAtom (AId n) \/ exists p i, f = EAtom (ANs p i n).
Definition call (n : text) (args : list arg) : expr := ECall (EAtom (AId n)) args.
Definition pos (e : expr) : arg := (None, Some e).
Definition named (n : text) (e : expr) : arg := (Some n, Some e).
Definition quoted_string (e : expr) : Prop := exists t, e = EAtom (AStr t).
Definition negate (b : bool) (e : expr) : expr := if b then e else EUn UNot e.

(** [outer(inner(args))], [inner(args) |> outer()] and [x |> inner() |> outer()]
    call [inner] on [args]. *)
Inductive composed (outer inner : text) : list frame -> expr -> list frame -> expr -> list arg -> Prop :=
| composed_call : forall fs f g args,
    called outer f -> called inner g ->
    let e := ECall f [pos (ECall g args)] in composed outer inner fs e fs e args
| composed_pipe : forall fs nl f g args,
    called outer f -> called inner g ->
    composed outer inner (FBinR BPipe nl (ECall g args) :: fs) (ECall f [])
             fs (EBin BPipe nl (ECall g args) (ECall f [])) args
| composed_pipes : forall fs nl nl' f g x,
    called outer f -> called inner g ->
    composed outer inner (FBinR BPipe nl (EBin BPipe nl' x (ECall g [])) :: fs) (ECall f [])
             fs (EBin BPipe nl (EBin BPipe nl' x (ECall g [])) (ECall f [])) [pos x].

(** [x == v], [v == x] and [x %in% v] ([true]), [x != v] and [v != x] ([false]). *)
Inductive compared : bool -> expr -> expr -> expr -> Prop :=
| eq_right : forall nl x v, compared true x v (EBin (BCmp CEq) nl x v)
| eq_left : forall nl x v, compared true x v (EBin (BCmp CEq) nl v x)
| ne_right : forall nl x v, compared false x v (EBin (BCmp CNe) nl x v)
| ne_left : forall nl x v, compared false x v (EBin (BCmp CNe) nl v x)
| in_right : forall nl x v, compared true x v (EBin (BSpecial (lit "%in%")) nl x v).

Definition condition (f : frame) : Prop :=
  (exists t el, f = FIfC t el) \/ (exists b, f = FWhileC b).
Definition one (e : expr) : Prop := e = EAtom (ANum (lit "1")) \/ e = EAtom (ANum (lit "1L")).
Definition two (e : expr) : Prop := e = EAtom (ANum (lit "2")) \/ e = EAtom (ANum (lit "2L")).
(** The names of missing values. *)
Definition missing_names : list text :=
  [lit "NA"; lit "NA_character_"; lit "NA_integer_"; lit "NA_real_"; lit "NA_logical_"; lit "NA_complex_"].
Definition na_literal (e : expr) : Prop := exists t, e = EAtom (ANa t) /\ In t missing_names.
(** Not a missing value, NULL, NaN, TRUE or FALSE. *)
Definition not_constant (e : expr) : Prop :=
  match e with
  | EAtom (ANa _ | ANull | ATrue | AFalse | AOther _) => False
  | EAtom (AId n) => ~ In n missing_names
  | _ => True
  end.
Definition not_a_call (e : expr) : Prop := match e with ECall _ _ => False | _ => True end.
(** In parentheses, unless a variable. *)
Definition grouped (e : expr) : expr := match e with EAtom (AId _) => e | _ => EParen e end.
Definition not_named (n : text) (args : list arg) : Prop := forall v, ~ In (Some n, v) args.

Inductive documented : text -> list frame -> expr -> list frame -> expr -> expr -> Prop :=
(* any(is.na(x)) and NA %in% x *)
| doc_any_is_na : forall fs e fs' e' args, composed (lit "any") (lit "is.na") fs e fs' e' args ->
    documented (lit "any_is_na") fs e fs' e' (call (lit "anyNA") args)
| doc_na_in : forall fs nl t x, let e := EBin (BSpecial (lit "%in%")) nl (EAtom (ANa t)) x in
    not_constant x -> documented (lit "any_is_na_2") fs e fs e (call (lit "anyNA") [pos x])
| doc_any_duplicated : forall fs e fs' e' args, composed (lit "any") (lit "duplicated") fs e fs' e' args ->
    documented (lit "any_duplicated") fs e fs' e'
      (EBin (BCmp CGt) false (call (lit "anyDuplicated") args) (EAtom (ANum (lit "0"))))
| doc_length_levels : forall fs e fs' e' args, composed (lit "length") (lit "levels") fs e fs' e' args ->
    documented (lit "length_levels") fs e fs' e' (call (lit "nlevels") args)
| doc_which_grepl : forall fs e fs' e' args, composed (lit "which") (lit "grepl") fs e fs' e' args ->
    documented (lit "which_grepl") fs e fs' e' (call (lit "grep") args)
(* all.equal() *)
| doc_isfalse_all_equal : forall fs e fs' e' args, composed (lit "isFALSE") (lit "all.equal") fs e fs' e' args ->
    documented (lit "all_equal") fs e fs' e'
      (EUn UNot (call (lit "isTRUE") [pos (call (lit "all.equal") args)]))
| doc_not_all_equal : forall fs f args, called (lit "all.equal") f ->
    let e := ECall f args in
    match fs with FUn _ :: _ => False | _ => True end ->
    documented (lit "all_equal") (FUn UNot :: fs) e fs (EUn UNot e) (EUn UNot (call (lit "isTRUE") [pos e]))
| doc_if_all_equal : forall c fs f args, condition c -> called (lit "all.equal") f ->
    let e := ECall f args in
    documented (lit "all_equal") (c :: fs) e (c :: fs) e (call (lit "isTRUE") [pos e])
(* comparisons with NA, NULL and NaN *)
| doc_equals_na : forall fs b x v e, compared b x v e -> na_literal v -> not_constant x ->
    documented (lit "equals_na") fs e fs e (negate b (call (lit "is.na") [pos x]))
| doc_equals_null : forall fs b x v e, compared b x v e -> v = EAtom ANull -> not_constant x ->
    documented (lit "equals_null") fs e fs e (negate b (call (lit "is.null") [pos x]))
| doc_equals_nan : forall fs b x v e, compared b x v e -> v = EAtom (AOther (lit "NaN")) -> not_constant x ->
    documented (lit "equals_nan") fs e fs e (negate b (call (lit "is.nan") [pos x]))
(* class() *)
| doc_class_equals : forall c fs b f x s e, condition c -> called (lit "class") f -> quoted_string s ->
    compared b (ECall f [pos x]) s e ->
    documented (lit "class_equals") (c :: fs) e (c :: fs) e (negate b (call (lit "inherits") [pos x; pos s]))
| doc_class_identical : forall fs f g x s, called (lit "identical") f -> called (lit "class") g -> quoted_string s ->
    let e := ECall f [pos (ECall g [pos x]); pos s] in
    documented (lit "class_identical") fs e fs e (call (lit "inherits") [pos x; pos s])
| doc_class_identical_r : forall fs f g x s, called (lit "identical") f -> called (lit "class") g -> quoted_string s ->
    let e := ECall f [pos s; pos (ECall g [pos x])] in
    documented (lit "class_identical") fs e fs e (call (lit "inherits") [pos x; pos s])
(* sequences *)
| doc_seq_length : forall fs nl o f args, one o -> called (lit "length") f ->
    let e := EBin BColon nl o (ECall f args) in
    documented (lit "seq") fs e fs e (call (lit "seq_along") args)
| doc_seq_size : forall fs nl o n f args, one o -> In n [lit "nrow"; lit "ncol"; lit "NROW"; lit "NCOL"] -> called n f ->
    let e := EBin BColon nl o (ECall f args) in
    documented (lit "seq") fs e fs e (call (lit "seq_len") [pos (call n args)])
| doc_seq2_length : forall fs f g args, called (lit "seq") f -> called (lit "length") g ->
    let e := ECall f [pos (ECall g args)] in
    documented (lit "seq2") fs e fs e (call (lit "seq_along") args)
| doc_seq2_size : forall fs f n g args, called (lit "seq") f ->
    In n [lit "nrow"; lit "ncol"; lit "NROW"; lit "NCOL"] -> called n g ->
    let e := ECall f [pos (ECall g args)] in
    documented (lit "seq2") fs e fs e (call (lit "seq_len") [pos (call n args)])
| doc_sort : forall fs f x, called (lit "order") f ->
    let e := ESub false x [pos (ECall f [pos x])] in
    documented (lit "sort") fs e fs e (call (lit "sort") [pos x])
| doc_sort_option : forall fs f x n v, called (lit "order") f ->
    In n [lit "na.last"; lit "decreasing"; lit "method"] ->
    let e := ESub false x [pos (ECall f [pos x; named n v])] in
    documented (lit "sort") fs e fs e (call (lit "sort") [pos x; named n v])
(* other functions *)
| doc_length_test : forall fs f c nl x y, called (lit "length") f ->
    let e := ECall f [pos (EBin (BCmp c) nl x y)] in
    documented (lit "length_test") fs e fs e (EBin (BCmp c) false (call (lit "length") [pos x]) y)
| doc_lengths : forall fs f n x more, In n [lit "sapply"; lit "vapply"; lit "map_dbl"; lit "map_int"] -> called n f ->
    not_named (lit "FUN") more -> not_named (lit "x") more ->
    let e := ECall f (pos x :: pos (EAtom (AId (lit "length"))) :: more) in
    documented (lit "lengths") fs e fs e (call (lit "lengths") [pos x])
| doc_sample_int : forall fs f o nl n a args, called (lit "sample") f -> one o -> not_named (lit "n") (a :: args) ->
    let e := ECall f (pos (EBin BColon nl o n) :: a :: args) in
    documented (lit "sample_int") fs e fs e (call (lit "sample.int") (pos n :: a :: args))
| doc_grepv : forall fs f args, called (lit "grep") f -> not_named (lit "value") args ->
    let e := ECall f (args ++ [named (lit "value") (EAtom ATrue)]) in
    documented (lit "grepv") fs e fs e (call (lit "grepv") args)
| doc_system_file : forall fs f a args pk, called (lit "system.file") f ->
    (forall n, ~ In (n, None) (a :: args)) ->
    let e := ECall f [pos (call (lit "file.path") (a :: args)); named (lit "package") pk] in
    documented (lit "system_file") fs e fs e
      (call (lit "system.file") ((a :: args) ++ [named (lit "package") pk]))
| doc_repeat : forall fs es, let e := EWhile (EAtom ATrue) (EBraces es) in
    documented (lit "repeat") fs e fs e (ERepeat (EBraces es))
| doc_repeat_one : forall fs b, let e := EWhile (EAtom ATrue) b in
    match b with EBraces _ => False | _ => True end ->
    documented (lit "repeat") fs e fs e (ERepeat (EBraces [b]))
| doc_matrix_apply : forall fs f x m row g mean more, called (lit "apply") f ->
    (if row : bool then one m else two m) ->
    g = EAtom (AId (if mean : bool then lit "mean" else lit "sum")) ->
    (more = [] \/ exists v, more = [named (lit "na.rm") v]) ->
    let e := ECall f ([pos x; pos m; pos g] ++ more) in
    documented (lit "matrix_apply") fs e fs e
      (call (if row then if mean then lit "rowMeans" else lit "rowSums"
             else if mean then lit "colMeans" else lit "colSums") (pos x :: more))
| doc_list2df : forall fs f what x, called (lit "do.call") f ->
    In what [EAtom (AId (lit "cbind.data.frame")); EAtom (AStr (lit """cbind.data.frame"""));
             EAtom (AStr (lit "'cbind.data.frame'"))] ->
    let e := ECall f [pos what; pos x] in
    documented (lit "list2df") fs e fs e (call (lit "list2DF") [pos x])
| doc_is_numeric : forall fs nl args,
    let e := EBin BOr2 nl (call (lit "is.numeric") args) (call (lit "is.integer") args) in
    documented (lit "is_numeric") fs e fs e (call (lit "is.numeric") args)
| doc_is_numeric_r : forall fs nl args,
    let e := EBin BOr2 nl (call (lit "is.integer") args) (call (lit "is.numeric") args) in
    documented (lit "is_numeric") fs e fs e (call (lit "is.numeric") args)
| doc_numeric_leading_zero : forall fs a b, Forall (fun c => (48 <= c <= 57)%N) (b :: a) ->
    let e := EAtom (ANum (lit "." ++ a ++ [b])) in
    documented (lit "numeric_leading_zero") fs e fs e (EAtom (ANum (lit "0." ++ a ++ [b])))
(* negations and conditions *)
| doc_comparison_negation : forall fs c c' nl x y,
    In (c, c') [(CGt, CLe); (CGe, CLt); (CLt, CGe); (CLe, CGt); (CEq, CNe); (CNe, CEq)] ->
    let e := EUn UNot (EParen (EBin (BCmp c) nl x y)) in
    documented (lit "comparison_negation") fs e fs e (EBin (BCmp c') false x y)
| doc_outer_negation : forall fs n n' x, In (n, n') [(lit "any", lit "all"); (lit "all", lit "any")] ->
    match x with EUn _ _ => False | _ => True end ->
    match fs with FUn UNot :: _ => False | _ => True end ->
    let e := call n [pos (EUn UNot x)] in
    documented (lit "outer_negation") fs e fs e (EUn UNot (call n' [pos x]))
| doc_redundant_ifelse : forall fs f n x, In n [lit "ifelse"; lit "if_else"; lit "fifelse"] -> called n f ->
    let e := ECall f [pos x; pos (EAtom ATrue); pos (EAtom AFalse)] in
    documented (lit "redundant_ifelse") fs e fs e x
| doc_redundant_ifelse_not : forall fs f n x, In n [lit "ifelse"; lit "if_else"; lit "fifelse"] -> called n f ->
    let e := ECall f [pos x; pos (EAtom AFalse); pos (EAtom ATrue)] in
    documented (lit "redundant_ifelse") fs e fs e (EUn UNot (EParen x))
| doc_redundant_equals : forall fs b v x e, compared b x v e -> not_constant x ->
    (forall nl, e <> EBin (BSpecial (lit "%in%")) nl x v) ->
    v = EAtom ATrue \/ v = EAtom AFalse ->
    documented (lit "redundant_equals") fs e fs e
      (negate (Bool.eqb b (match v with EAtom ATrue => true | _ => false end)) x)
| doc_coalesce : forall fs f x y, called (lit "is.null") f ->
    match x with EBraces _ => False | _ => True end -> match y with EBraces _ => False | _ => True end ->
    let e := EIf (ECall f [pos x]) y (Some x) in
    documented (lit "coalesce") fs e fs e (EBin (BSpecial (lit "%||%")) false x y)
| doc_coalesce_not : forall fs f x y, called (lit "is.null") f ->
    match x with EBraces _ => False | _ => True end -> match y with EBraces _ => False | _ => True end ->
    let e := EIf (EUn UNot (ECall f [pos x])) (EBraces [x]) (Some (EBraces [y])) in
    documented (lit "coalesce") fs e fs e (EBin (BSpecial (lit "%||%")) false x y)
| doc_unnecessary_nesting : forall fs a b t,
    let e := EIf a (EBraces [EIf b t None]) None in
    documented (lit "unnecessary_nesting") fs e fs e (EIf (EBin BAnd2 false (grouped a) (grouped b)) t None)
| doc_true_symbol : forall fs x v, In (x, v) [(lit "T", ATrue); (lit "F", AFalse)] ->
    match fs with
    | (FCallF _ | FExtract _ _ | FBinL BTilde _ _ | FBinR BTilde _ _) :: _ => False
    | _ => True
    end ->
    let e := EAtom (AId x) in
    documented (lit "true_false_symbol") fs e fs e (EAtom v)
(* assignments, with the default option *)
| doc_assignment : forall fs nl x v, let e := EBin BEq nl x v in
    documented (lit "assignment") fs e fs e (EBin (BAssign (lit "<-")) false x v)
| doc_assignment_right : forall fs nl x v, let e := EBin (BRAssign (lit "->")) nl v x in
    documented (lit "assignment") fs e fs e (EBin (BAssign (lit "<-")) false x v)
(* strings *)
| doc_starts_with : forall fs f n b x o stop s e, In n [lit "substr"; lit "substring"] -> called n f -> one o ->
    compared b (ECall f [pos x; pos o; pos stop]) s e -> not_a_call s ->
    (forall nl, e <> EBin (BSpecial (lit "%in%")) nl (ECall f [pos x; pos o; pos stop]) s) ->
    documented (lit "string_boundary") fs e fs e (negate b (call (lit "startsWith") [pos x; pos s]))
| doc_ends_with : forall fs f n b x start g s e, In n [lit "substr"; lit "substring"] -> called n f ->
    called (lit "nchar") g -> match start with EAtom (ANum _) => False | _ => True end ->
    compared b (ECall f [pos x; pos start; pos (ECall g [pos x])]) s e -> not_a_call s ->
    (forall nl, e <> EBin (BSpecial (lit "%in%")) nl (ECall f [pos x; pos start; pos (ECall g [pos x])]) s) ->
    documented (lit "string_boundary") fs e fs e (negate b (call (lit "endsWith") [pos x; pos s]))
| doc_fixed_regex : forall fs n w x, In n [lit "grepl"; lit "grep"; lit "regexpr"; lit "gregexpr"; lit "regexec"] ->
    Forall (fun c => In c (lit "abcdefghijklmnopqrstuvwxyz -_,;:=<>#@!%&~/0123456789")) w ->
    let e := call n [pos (EAtom (AStr (lit """" ++ w ++ lit """"))); pos x] in
    documented (lit "fixed_regex") fs e fs e
      (call n [pos (EAtom (AStr (lit """" ++ w ++ lit """"))); pos x; named (lit "fixed") (EAtom ATrue)])
| doc_fixed_regex_sub : forall fs n w y x, In n [lit "gsub"; lit "sub"] ->
    Forall (fun c => In c (lit "abcdefghijklmnopqrstuvwxyz -_,;:=<>#@!%&~/0123456789")) w ->
    let e := call n [pos (EAtom (AStr (lit """" ++ w ++ lit """"))); pos y; pos x] in
    documented (lit "fixed_regex") fs e fs e
      (call n [pos (EAtom (AStr (lit """" ++ w ++ lit """"))); pos y; pos x; named (lit "fixed") (EAtom ATrue)])
(* testthat: the package prefix is kept *)
| doc_expect_length : forall fs f f' n x v, In n [lit "expect_equal"; lit "expect_identical"] ->
    expectation n (lit "expect_length") f f' -> not_a_call v ->
    let e := ECall f [pos (call (lit "length") [pos x]); pos v] in
    documented (lit "expect_length") fs e fs e (ECall f' [pos x; pos v])
| doc_expect_length_r : forall fs f f' n x v, In n [lit "expect_equal"; lit "expect_identical"] ->
    expectation n (lit "expect_length") f f' -> not_a_call v ->
    let e := ECall f [pos v; pos (call (lit "length") [pos x])] in
    documented (lit "expect_length") fs e fs e (ECall f' [pos x; pos v])
| doc_expect_named : forall fs f f' n x v, In n [lit "expect_equal"; lit "expect_identical"] ->
    expectation n (lit "expect_named") f f' -> not_a_call v \/ (exists args, v = call (lit "c") args) ->
    let e := ECall f [pos (call (lit "names") [pos x]); pos v] in
    documented (lit "expect_named") fs e fs e (ECall f' [pos x; pos v])
| doc_expect_not : forall fs f f' n n' x,
    In (n, n') [(lit "expect_true", lit "expect_false"); (lit "expect_false", lit "expect_true")] ->
    expectation n n' f f' -> match x with EUn UNot _ | EParen _ => False | _ => True end ->
    let e := ECall f [pos (EUn UNot x)] in
    documented (lit "expect_not") fs e fs e (ECall f' [pos x])
| doc_expect_not_paren : forall fs f f' n n' x,
    In (n, n') [(lit "expect_true", lit "expect_false"); (lit "expect_false", lit "expect_true")] ->
    expectation n n' f f' ->
    let e := ECall f [pos (EUn UNot (EParen x))] in
    documented (lit "expect_not") fs e fs e (ECall f' [pos x])
| doc_expect_null : forall fs f f' n x, In n [lit "expect_equal"; lit "expect_identical"] ->
    expectation n (lit "expect_null") f f' ->
    let e := ECall f [pos x; pos (EAtom ANull)] in
    documented (lit "expect_null") fs e fs e (ECall f' [pos x])
| doc_expect_null_true : forall fs f f' x, expectation (lit "expect_true") (lit "expect_null") f f' ->
    let e := ECall f [pos (call (lit "is.null") [pos x])] in
    documented (lit "expect_null") fs e fs e (ECall f' [pos x])
| doc_expect_s3_class : forall fs f f' n x t, In n [lit "expect_equal"; lit "expect_identical"] ->
    expectation n (lit "expect_s3_class") f f' ->
    In t [lit """data.frame"""; lit """Date"""; lit """lm"""; lit """factor"""; lit "'foo'"] ->
    let e := ECall f [pos (call (lit "class") [pos x]); pos (EAtom (AStr t))] in
    documented (lit "expect_s3_class") fs e fs e (ECall f' [pos x; pos (EAtom (AStr t))])
| doc_expect_true : forall fs f f' n x v m, In n [lit "expect_equal"; lit "expect_identical"] ->
    In (v, m) [(ATrue, lit "expect_true"); (AFalse, lit "expect_false")] -> expectation n m f f' -> not_constant x ->
    let e := ECall f [pos x; pos (EAtom v)] in
    documented (lit "expect_true_false") fs e fs e (ECall f' [pos x])
| doc_expect_true_r : forall fs f f' n x v m, In n [lit "expect_equal"; lit "expect_identical"] ->
    In (v, m) [(ATrue, lit "expect_true"); (AFalse, lit "expect_false")] -> expectation n m f f' -> not_constant x ->
    let e := ECall f [pos (EAtom v); pos x] in
    documented (lit "expect_true_false") fs e fs e (ECall f' [pos x])
| doc_expect_type : forall fs f f' n x v, In n [lit "expect_equal"; lit "expect_identical"] ->
    expectation n (lit "expect_type") f f' -> quoted_string v ->
    let e := ECall f [pos (call (lit "typeof") [pos x]); pos v] in
    documented (lit "expect_type") fs e fs e (ECall f' [pos x; pos v])
| doc_expect_type_true : forall fs f f' ty x, expectation (lit "expect_true") (lit "expect_type") f f' ->
    In ty [lit "logical"; lit "integer"; lit "double"; lit "complex"; lit "character"; lit "raw"; lit "list";
           lit "symbol"; lit "expression"; lit "language"; lit "environment"; lit "pairlist"] ->
    let e := ECall f [pos (call (lit "is." ++ ty) [pos x])] in
    documented (lit "expect_type") fs e fs e (ECall f' [pos x; pos (EAtom (AStr (lit """" ++ ty ++ lit """")))])
| doc_expect_type_null : forall fs f f' x, expectation (lit "expect_true") (lit "expect_type") f f' ->
    let e := ECall f [pos (call (lit "is.null") [pos x])] in
    documented (lit "expect_type") fs e fs e (ECall f' [pos x; pos (EAtom (AStr (lit """NULL""")))])
| doc_expect_match : forall fs f f' pat x more, expectation (lit "expect_true") (lit "expect_match") f f' ->
    (forall a, In a more -> exists n v, a = named n v) -> not_named (lit "pattern") more -> not_named (lit "x") more ->
    let e := ECall f [pos (call (lit "grepl") (pos pat :: pos x :: more))] in
    documented (lit "expect_match") fs e fs e (ECall f' (pos x :: pos pat :: more))
| doc_expect_no_match : forall fs f f' pat x more, expectation (lit "expect_false") (lit "expect_no_match") f f' ->
    (forall a, In a more -> exists n v, a = named n v) -> not_named (lit "pattern") more -> not_named (lit "x") more ->
    let e := ECall f [pos (call (lit "grepl") (pos pat :: pos x :: more))] in
    documented (lit "expect_no_match") fs e fs e (ECall f' (pos x :: pos pat :: more))
with expectation : text -> text -> expr -> expr -> Prop :=
| bare_expectation : forall n n', expectation n n' (EAtom (AId n)) (EAtom (AId n'))
| package_expectation : forall n n' p, expectation n n' (EAtom (ANs p false n)) (EAtom (ANs p false n')).

(** The rules of jarl that rewrite one node, by name, with the default options. *)
Definition ok {A} (x : res (option A)) : option A := match x with ROk o => o | _ => None end.
Definition rewriting_rules : list (text * (list frame -> expr -> option report)) :=
  [ (lit "any_is_na", any_is_na); (lit "any_is_na_2", any_is_na_2); (lit "any_duplicated", any_duplicated);
    (lit "length_levels", length_levels); (lit "which_grepl", which_grepl); (lit "all_equal", all_equal);
    (lit "equals_na", equals_na); (lit "equals_null", equals_null); (lit "equals_nan", equals_nan);
    (lit "class_equals", class_equals); (lit "class_identical", class_identical);
    (lit "seq", seq_rule); (lit "seq2", seq2_rule); (lit "sort", sort_rule);
    (lit "length_test", fun fs e => ok (length_test fs e)); (lit "lengths", fun fs e => ok (lengths_rule fs e));
    (lit "sample_int", fun fs e => ok (sample_int fs e)); (lit "grepv", grepv); (lit "system_file", system_file);
    (lit "repeat", repeat_loop); (lit "matrix_apply", matrix_apply); (lit "list2df", list2df);
    (lit "is_numeric", is_numeric); (lit "numeric_leading_zero", numeric_leading_zero);
    (lit "comparison_negation", comparison_negation); (lit "outer_negation", outer_negation);
    (lit "redundant_ifelse", redundant_ifelse); (lit "redundant_equals", redundant_equals);
    (lit "coalesce", coalesce); (lit "unnecessary_nesting", unnecessary_nesting);
    (lit "true_false_symbol", true_false_symbol); (lit "assignment", assignment true);
    (lit "string_boundary", string_boundary); (lit "fixed_regex", fixed_regex);
    (lit "expect_length", expect_length); (lit "expect_named", expect_named); (lit "expect_not", expect_not);
    (lit "expect_null", expect_null); (lit "expect_s3_class", expect_s3_class);
    (lit "expect_true_false", expect_true_false); (lit "expect_type", expect_type);
    (lit "expect_match", expect_match); (lit "expect_no_match", expect_no_match) ].
