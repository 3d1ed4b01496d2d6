(** What each rule looks for.

    [meanings] lists, for every rule that looks at one node, the code it is
    meant to report, in terms of the syntax tree alone.  [fs] are the frames
    around the node [e], innermost first. *)
From Verif Require Export Spec.RStops.
From Verif Require Spec.RLex.

(** [e] is a call of a function called [n], with or without a package. *)
Definition calls (n : text) (e : expr) (args : list arg) : Prop :=
  exists f, e = ECall f args /\ function_name f n.
Definition calls_one_of (l : list text) (e : expr) (args : list arg) : Prop :=
  exists n, In n l /\ calls n e args.
(** One of [names] is that of [f]; the empty name is that of a function without a name. *)
Definition named_among (names : list text) (f : expr) : Prop :=
  (exists n, In n names /\ function_name f n) \/ In [] names /\ forall n, ~ function_name f n.
Definition is_call_of (n : text) (e : expr) : Prop := exists args, calls n e args.
(** The value given to the argument [n], or to the [k]-th unnamed one. *)
Definition given (args : list arg) (n : text) (k : nat) (v : expr) : Prop := exists m, chosen args n k (m, Some v).
(** Two pieces of code with the same text. *)
Definition same_code (a b : expr) : Prop := toks a = toks b.
Definition string_of (l : list text) (e : expr) : Prop := exists t, In t l /\ e = EAtom (AStr t).
(** A word, in double or single quotes. *)
Definition in_quotes (w : text) : list text := [lit """" ++ w ++ lit """"; lit "'" ++ w ++ lit "'"].

(** A call of [outer] to which the result of a call of [inner] is given:
    [outer(inner(..), ..)], [inner(..) |> outer(..)], [x |> inner() |> outer(..)]. *)
Definition composition (outer inner : text) (fs : list frame) (e : expr) : Prop :=
  exists args, calls outer e args /\
  ((exists pre c post, args = pre ++ (None, Some c) :: post /\ (forall v, ~ In (None, v) pre) /\ is_call_of inner c) \/
   (exists nl c fs', fs = FBinR BPipe nl c :: fs' /\ is_call_of inner c) \/
   (exists nl nl' x c gargs fs', fs = FBinR BPipe nl (EBin BPipe nl' x c) :: fs' /\ calls inner c gargs /\
      forall v, ~ In (None, v) gargs)).

(** [==], [!=] or [%in%] *)
Definition equality_op (o : binop) : Prop := o = BCmp CEq \/ o = BCmp CNe \/ o = BSpecial (lit "%in%").
(** The node is the condition of an [if] or a [while]. *)
Definition is_condition (fs : list frame) : Prop :=
  (exists t el fs', fs = FIfC t el :: fs') \/ (exists b fs', fs = FWhileC b :: fs').
(** The node is the operand of a [!] (of one, not of two). *)
Definition is_negated (fs : list frame) : Prop :=
  exists fs', fs = FUn UNot :: fs' /\ match fs' with FUn _ :: _ => False | _ => True end.

(** *** Missing values and other constants *)
Definition is_na (e : expr) : Prop :=
  exists t, In t [lit "NA"; lit "NA_character_"; lit "NA_integer_"; lit "NA_real_"; lit "NA_logical_"; lit "NA_complex_"] /\
    (e = EAtom (ANa t) \/ e = EAtom (AId t)).
(** One side of a comparison, and one only, is a [k]. *)
Definition compared_with (k : expr -> Prop) (e : expr) : Prop :=
  exists o nl l r, e = EBin o nl l r /\ equality_op o /\ (k l /\ ~ k r \/ ~ k l /\ k r).
Definition flags_equals_na (fs : list frame) (e : expr) : Prop :=
  compared_with is_na e /\ forall nl l r, e = EBin (BSpecial (lit "%in%")) nl l r -> ~ is_na l.
Definition flags_equals_nan (fs : list frame) (e : expr) : Prop :=
  compared_with (fun x => x = EAtom (AOther (lit "NaN"))) e /\
  forall nl l r, e = EBin (BSpecial (lit "%in%")) nl l r -> l <> EAtom (AOther (lit "NaN")).
Definition flags_equals_null (fs : list frame) (e : expr) : Prop := compared_with (fun x => x = EAtom ANull) e.
Definition flags_na_in (fs : list frame) (e : expr) : Prop :=
  exists nl t r, e = EBin (BSpecial (lit "%in%")) nl (EAtom (ANa t)) r /\ forall u, r <> EAtom (ANa u).
Definition flags_redundant_equals (fs : list frame) (e : expr) : Prop :=
  exists o nl l r, e = EBin (BCmp o) nl l r /\ (o = CEq \/ o = CNe) /\
    exists b, (b = ATrue \/ b = AFalse) /\ (l = EAtom b \/ r = EAtom b).
Definition flags_true_false_symbol (fs : list frame) (e : expr) : Prop :=
  (e = EAtom (AId (lit "T")) \/ e = EAtom (AId (lit "F"))) /\
  match fs with
  | FCallF _ :: _ | FExtract _ _ :: _ | FBinL BTilde _ _ :: _ | FBinR BTilde _ _ :: _ => False
  | _ => True
  end.
Definition flags_true_false_variable (fs : list frame) (e : expr) : Prop :=
  exists v q b, e = EFor v q b /\ (v = lit "T" \/ v = lit "F").
Definition flags_numeric_leading_zero (fs : list frame) (e : expr) : Prop :=
  exists t, e = EAtom (ANum (lit "." ++ t)) /\ forall u, t <> u ++ lit "L".

(** *** Compositions *)
Definition flags_all_equal (fs : list frame) (e : expr) : Prop :=
  composition (lit "isFALSE") (lit "all.equal") fs e \/
  is_call_of (lit "all.equal") e /\ (is_negated fs \/ is_condition fs).

(** *** Classes *)
Definition class_and_string (l r : expr) : Prop :=
  (exists a args t, calls (lit "class") l (a :: args) /\ r = EAtom (AStr t)) \/
  (exists a args t, l = EAtom (AStr t) /\ calls (lit "class") r (a :: args)).
Definition flags_class_equals (fs : list frame) (e : expr) : Prop :=
  is_condition fs /\ exists o nl l r, e = EBin o nl l r /\ equality_op o /\ class_and_string l r.
Definition flags_class_identical (fs : list frame) (e : expr) : Prop :=
  exists m l n r args, calls (lit "identical") e ((m, Some l) :: (n, Some r) :: args) /\ class_and_string l r.

(** *** Assignments *)
Definition flags_assignment (arrow : bool) (fs : list frame) (e : expr) : Prop :=
  exists o nl l r, e = EBin o nl l r /\
    (o = BRAssign (lit "->") \/ if arrow then o = BEq else o = BAssign (lit "<-")).
Definition flags_empty_assignment (fs : list frame) (e : expr) : Prop :=
  exists o nl x, ((o = BEq \/ o = BAssign (lit "<-")) /\ e = EBin o nl x (EBraces [])) \/
                 (o = BRAssign (lit "->") /\ e = EBin o nl (EBraces []) x).
(** The frames between the node and the closest [k] hold no braced block. *)
Definition unblocked (k : frame -> Prop) (fs : list frame) : Prop :=
  exists pre f post, fs = pre ++ f :: post /\ k f /\ (forall a b, ~ In (FBraces a b) pre).
Definition argument_frame (f : frame) : Prop :=
  match f with FCallA _ _ _ _ | FSubA _ _ _ _ _ => True | _ => False end.
Definition if_frame (f : frame) : Prop := match f with FIfC _ _ | FIfT _ _ | FIfE _ _ => True | _ => False end.
Definition while_frame (f : frame) : Prop := match f with FWhileC _ | FWhileB _ => True | _ => False end.
Definition for_frame (f : frame) : Prop := match f with FForS _ _ | FForB _ _ => True | _ => False end.
(** The function of the closest call around the node. *)
Definition called_around (fs : list frame) (e : expr) (g : expr) : Prop :=
  exists pre f post, fs = pre ++ f :: post /\
    (forall x, In x pre -> match x with FCallF _ | FCallA _ _ _ _ => False | _ => True end) /\
    ((exists args, f = FCallF args /\ g = plug pre e) \/ (exists a n b, f = FCallA g a n b)).
Definition body_of (k : frame -> Prop) (fs : list frame) : Prop := exists f fs', fs = f :: fs' /\ k f.
Definition flags_implicit_assignment (skipped : list text) (fs : list frame) (e : expr) : Prop :=
  (exists o nl l r, e = EBin o nl l r /\
     In o [BAssign (lit "<-"); BAssign (lit "<<-"); BRAssign (lit "->"); BRAssign (lit "->>")]) /\
  ~ (unblocked argument_frame fs /\ exists g, called_around fs e g /\ named_among skipped g) /\
  (unblocked argument_frame fs \/
   unblocked if_frame fs /\ ~ body_of (fun f => match f with FIfT _ _ | FIfE _ _ => True | _ => False end) fs \/
   unblocked while_frame fs /\ ~ body_of (fun f => match f with FWhileB _ => True | _ => False end) fs \/
   unblocked for_frame fs /\ ~ body_of (fun f => match f with FForB _ _ => True | _ => False end) fs).

(** *** Conditions and negations *)
Definition flags_comparison_negation (fs : list frame) (e : expr) : Prop :=
  exists c nl l r, e = EUn UNot (EParen (EBin (BCmp c) nl l r)).
Definition flags_outer_negation (fs : list frame) (e : expr) : Prop :=
  ~ is_negated fs /\
  exists n m u x, (n = lit "all" \/ n = lit "any") /\ e = call n [(m, Some (EUn u x))] /\
    match x with EUn _ _ => False | _ => True end.
Definition flags_redundant_ifelse (fs : list frame) (e : expr) : Prop :=
  exists n a b c args x y z, In (n, (a, b, c))
      [ (lit "ifelse", (lit "test", lit "yes", lit "no"));
        (lit "if_else", (lit "condition", lit "true", lit "false"));
        (lit "fifelse", (lit "test", lit "yes", lit "no")) ] /\
    calls n e args /\ length args = 3 /\
    given args a 1 x /\ given args b 2 (EAtom y) /\ given args c 3 (EAtom z) /\
    (y = ATrue \/ y = AFalse) /\ (z = ATrue \/ z = AFalse).
(** A block with one expression stands for it. *)
Definition unwrapped (e x : expr) : Prop :=
  e = EBraces [x] \/ (e = x /\ forall y, e <> EBraces [y]).
(** Exactly one argument has a value. *)
Definition only_value (args : list arg) (x : expr) : Prop :=
  exists pre n post, args = pre ++ (n, Some x) :: post /\ forall m v, ~ In (m, Some v) (pre ++ post).
Definition flags_coalesce (fs : list frame) (e : expr) : Prop :=
  exists c t el args x, e = EIf c t (Some el) /\ only_value args x /\
    ((calls (lit "is.null") c args /\ exists y, unwrapped el y /\ same_code x y) \/
     (exists d, c = EUn UNot d /\ calls (lit "is.null") d args /\ exists y, unwrapped t y /\ same_code x y)).
Definition flags_unnecessary_nesting (fs : list frame) (e : expr) : Prop :=
  exists a b t, e = EIf a (EBraces [EIf b t None]) None.
(** Conditions that are always true, or always false. *)
Inductive number_is : text -> bool -> Prop :=
| integer_is : forall a v, a <> [] -> stands_for a v -> (v < 2 ^ 63)%N -> number_is (a ++ lit "L") (negb (v =? 0)%N)
| decimal_is : forall t ds, literal t ds -> (forall a, t <> a ++ lit "L") ->
    number_is t (negb (forallb (N.eqb 48) ds)).
Inductive always : expr -> bool -> Prop :=
| always_true : always (EAtom ATrue) true
| always_false : always (EAtom AFalse) false
| always_inf : always (EAtom (AOther (lit "Inf"))) true
| always_number : forall t b, number_is t b -> always (EAtom (ANum t)) b
| always_paren : forall e b, always e b -> always (EParen e) b
| always_not : forall e b, always e b -> always (EUn UNot e) (negb b)
| always_sign : forall u e b, u = UNeg \/ u = UPos -> always e b -> always (EUn u e) b
| always_or : forall o nl l r, o = BOr \/ o = BOr2 -> always l true \/ always r true -> always (EBin o nl l r) true
| always_nor : forall o nl l r, o = BOr \/ o = BOr2 -> always l false -> always r false -> always (EBin o nl l r) false
| always_nand : forall o nl l r, o = BAnd \/ o = BAnd2 -> always l false \/ always r false -> always (EBin o nl l r) false
| always_and : forall o nl l r, o = BAnd \/ o = BAnd2 -> always l true -> always r true -> always (EBin o nl l r) true.
Definition flags_if_always_true (fs : list frame) (e : expr) : Prop :=
  exists c t, e = EIf c t None /\ always c true /\ forall u, deciding c u -> understood u.
Definition flags_vector_logic (fs : list frame) (e : expr) : Prop :=
  is_condition fs /\ exists o nl l r, e = EBin o nl l r /\ (o = BAnd \/ o = BOr) /\
    forall x, x = l \/ x = r ->
      (forall t, x <> EAtom (AStr t)) /\ forall args, ~ calls_one_of [lit "as.raw"; lit "as.octmode"; lit "as.hexmode"] x args.
Definition flags_is_numeric (fs : list frame) (e : expr) : Prop :=
  exists nl f g a b, e = EBin BOr2 nl (call f a) (call g b) /\ args_toks a = args_toks b /\
    ((f = lit "is.numeric" /\ g = lit "is.integer") \/ (f = lit "is.integer" /\ g = lit "is.numeric")).

(** *** Loops *)
Definition flags_repeat (fs : list frame) (e : expr) : Prop := exists b, e = EWhile (EAtom ATrue) b.
Definition flags_for_loop_dup_index (fs : list frame) (e : expr) : Prop :=
  exists v q b, e = EFor v q b /\ exists f, In f fs /\ ((exists b', f = FForS v b') \/ exists q', f = FForB v q').
(** The variable, or the name or the value of an argument that is one. *)
Inductive mentions (x : text) : expr -> Prop :=
| mentions_variable : mentions x (EAtom (AId x))
| mentions_name : forall f args v, In (Some x, v) args -> mentions x (ECall f args)
| mentions_value : forall f args n v, In (n, Some v) args -> mentions x v -> mentions x (ECall f args).
Definition flags_for_loop_index (fs : list frame) (e : expr) : Prop :=
  exists v q b, e = EFor v q b /\ mentions v q.

(** *** Calls *)
Definition flags_browser (fs : list frame) (e : expr) : Prop := is_call_of (lit "browser") e.
Definition flags_undesirable (names : list text) (fs : list frame) (e : expr) : Prop :=
  exists f args, e = ECall f args /\ named_among names f.
Definition flags_internal_function (fs : list frame) (e : expr) : Prop := exists p n, e = EAtom (ANs p true n).
Definition flags_download_file (fs : list frame) (e : expr) : Prop :=
  exists args, calls (lit "download.file") e args /\
    (forall m, given args (lit "method") 3 m -> ~ string_of (in_quotes (lit "wget") ++ in_quotes (lit "curl")) m) /\
    forall m, given args (lit "mode") 5 m -> string_of (in_quotes (lit "w") ++ in_quotes (lit "a")) m.
(** The text of tokens, without spaces. *)
Definition written (ts : list tok) : text := concat (map RLex.tok_text ts).
(** The text by which a function is called. *)
Inductive called_as : expr -> text -> Prop :=
| as_package : forall p i n, called_as (EAtom (ANs p i n)) n
| as_block : forall es, called_as (EBraces es) (concat (map (fun x => written (toks x)) es))
| as_member : forall x o n, called_as (EExtract x o n) n
| as_result : forall g args, called_as (ECall g args) (written (toks g))
| as_element : forall d x args, called_as (ESub d x args) (written (TLb d :: args_toks args ++ [TRb d]))
| as_name : forall x, called_as (EAtom (AId x)) x
| as_number : forall t, called_as (EAtom (ANum t)) t
| as_string : forall t, called_as (EAtom (AStr t)) t
| as_group : forall x, called_as (EParen x) (written (toks x))
| as_return : called_as (EAtom (AOther (lit "return"))) (lit "return").
(** Two names that differ at most in quotes and backquotes. *)
Definition unquoted (n : text) : text := filter (fun c => negb (existsb (N.eqb c) [39; 34; 96]%N)) n.
Definition same_name (n m : text) : Prop :=
  let bare x := match unquoted x with [] => x | y => y end in bare n = bare m.
Definition flags_duplicated_arguments (skipped : list text) (fs : list frame) (e : expr) : Prop :=
  exists f args n, e = ECall f args /\ called_as f n /\ ~ In n skipped /\ (forall r, n <> lit "cli_" ++ r) /\
    exists pre a v mid b w post, args = pre ++ (Some a, v) :: mid ++ (Some b, w) :: post /\ same_name a b.
Definition flags_grepv (fs : list frame) (e : expr) : Prop :=
  exists args a, calls (lit "grep") e args /\ chosen args (lit "value") 5 a.
Definition flags_length_test (fs : list frame) (e : expr) : Prop :=
  exists n c nl l r args, calls (lit "length") e ((n, Some (EBin (BCmp c) nl l r)) :: args).
Definition flags_lengths (fs : list frame) (e : expr) : Prop :=
  exists args a, calls_one_of [lit "sapply"; lit "vapply"; lit "map_dbl"; lit "map_int"] e args /\
    given args (lit "FUN") 2 (EAtom (AId (lit "length"))) /\ chosen args (lit "x") 1 a.
Definition flags_list2df (fs : list frame) (e : expr) : Prop :=
  exists args what l, calls (lit "do.call") e args /\ length args < 3 /\
    given args (lit "what") 1 what /\ given args (lit "args") 2 l /\
    (what = EAtom (AId (lit "cbind.data.frame")) \/ string_of (in_quotes (lit "cbind.data.frame")) what).
Definition flags_matrix_apply (fs : list frame) (e : expr) : Prop :=
  exists args x g m, calls (lit "apply") e args /\
    given args (lit "X") 1 x /\ given args (lit "MARGIN") 2 m /\ given args (lit "FUN") 3 g /\
    (one m \/ two m) /\ (g = EAtom (AId (lit "mean")) \/ g = EAtom (AId (lit "sum"))) /\
    (length args <= 3 \/ length args = 4 /\ exists v, In (Some (lit "na.rm"), v) args).
Definition flags_sample_int (fs : list frame) (e : expr) : Prop :=
  exists args nl o n, calls (lit "sample") e args /\ given args (lit "n") 1 (EBin BColon nl o n) /\ one o.
Definition sizes : list text := [lit "length"; lit "nrow"; lit "ncol"; lit "NROW"; lit "NCOL"].
Definition flags_seq (fs : list frame) (e : expr) : Prop :=
  exists nl o c args, e = EBin BColon nl o c /\ one o /\ calls_one_of sizes c args.
Definition flags_seq2 (fs : list frame) (e : expr) : Prop :=
  exists c args, calls (lit "seq") e [(None, Some c)] /\ calls_one_of sizes c args.
Definition flags_sort (fs : list frame) (e : expr) : Prop :=
  exists x c args v, e = ESub false x [(None, Some c)] /\ calls (lit "order") c args /\
    (exists pre post, args = pre ++ (None, v) :: post /\ (forall w, ~ In (None, w) (pre ++ post))) /\
    opt_toks v = toks x.
Definition file_path (a : arg) : Prop := exists args, a = (None, Some (call (lit "file.path") args)).
Definition flags_system_file (fs : list frame) (e : expr) : Prop :=
  exists args pre gargs post, calls (lit "system.file") e args /\
    args = pre ++ (None, Some (call (lit "file.path") gargs)) :: post /\ (forall a, In a (pre ++ post) -> ~ file_path a) /\
    exists n v, In (n, Some v) gargs.
Definition literal_one (e : expr) : Prop :=
  exists t, In t [lit "1"; lit "1L"; lit "1.0"; lit "1."] /\ e = EAtom (ANum t).
Definition flags_string_boundary (fs : list frame) (e : expr) : Prop :=
  exists c nl l r s args, e = EBin (BCmp c) nl l r /\ (c = CEq \/ c = CNe) /\
    (s = l \/ s = r /\ forall f a, l <> ECall f a) /\ calls_one_of [lit "substr"; lit "substring"] s args /\
    exists n1 x n2 start n3 stop more, args = (n1, Some x) :: (n2, Some start) :: (n3, Some stop) :: more /\
      (literal_one start \/ exists m v, calls (lit "nchar") stop [(m, Some v)] /\ same_code v x).
(** A pattern without special characters. *)
Definition special_chars : text := lit ".*+?[{()|^$\".
Definition quote_char (c : char) : Prop := c = 34%N \/ c = 39%N.
(** What is between the quotes at both ends. *)
Definition between_quotes (t w : text) : Prop :=
  exists a b, t = a ++ w ++ b /\ Forall quote_char a /\ Forall quote_char b /\
    (forall c r, w = c :: r -> ~ quote_char c) /\ (forall c r, w = r ++ [c] -> ~ quote_char c).
Definition flags_fixed_regex (fs : list frame) (e : expr) : Prop :=
  exists n fixed_at case_at args t w, In (n, (fixed_at, case_at))
      [ (lit "grep", (6, 3)); (lit "gsub", (6, 4)); (lit "sub", (6, 4)); (lit "grepl", (5, 3));
        (lit "regexpr", (5, 3)); (lit "gregexpr", (5, 3)); (lit "regexec", (5, 3)) ] /\
    calls n e args /\ given args (lit "pattern") 1 (EAtom (AStr t)) /\ between_quotes t w /\
    (forall c, In c w -> ~ In c special_chars) /\
    ~ given args (lit "fixed") fixed_at (EAtom ATrue) /\ ~ given args (lit "ignore.case") case_at (EAtom ATrue) /\
    (given args (lit "fixed") fixed_at (EAtom AFalse) -> fixed_at <= length args \/ exists v, In (Some (lit "fixed"), v) args).

(** *** testthat *)
Definition equal_expectation (e : expr) (args : list arg) (a b : expr) : Prop :=
  calls_one_of [lit "expect_equal"; lit "expect_identical"] e args /\
  given args (lit "object") 1 a /\ given args (lit "expected") 2 b.
Definition applied_to (n : text) (e x : expr) : Prop := exists args, calls n e args /\ given args (lit "x") 1 x.
Definition flags_expect_length (fs : list frame) (e : expr) : Prop :=
  exists args a b, equal_expectation e args a b /\ length args <= 2 /\
    ((exists x, applied_to (lit "length") a x) /\ ~ is_call_of (lit "length") b \/
     ~ is_call_of (lit "length") a /\ exists x, applied_to (lit "length") b x).
Definition flags_expect_named (fs : list frame) (e : expr) : Prop :=
  exists args a b, equal_expectation e args a b /\
    (exists x, applied_to (lit "names") a x) /\ ~ is_call_of (lit "names") b.
Definition flags_expect_not (fs : list frame) (e : expr) : Prop :=
  exists args x, calls_one_of [lit "expect_true"; lit "expect_false"] e args /\ length args <= 1 /\
    given args (lit "object") 1 (EUn UNot x) /\ forall y, x <> EUn UNot y.
Definition flags_expect_null (fs : list frame) (e : expr) : Prop :=
  (exists args a b, equal_expectation e args a b /\ (a = EAtom ANull \/ b = EAtom ANull)) \/
  (exists args c x, calls (lit "expect_true") e args /\ given args (lit "object") 1 c /\ applied_to (lit "is.null") c x).
Definition no_quotes (t : text) : text := filter (fun c => negb (existsb (N.eqb c) [34; 39]%N)) t.
Definition base_classes : list text := [lit "NULL"; lit "symbol"; lit "pairlist"; lit "closure"; lit "environment"; lit "promise"; lit "language"; lit "special"; lit "builtin"; lit "char"; lit "logical"; lit "integer"; lit "double"; lit "complex"; lit "character"; lit "..."; lit "any"; lit "expression"; lit "list"; lit "externalptr"; lit "bytecode"; lit "weakref"; lit "raw"; lit "S4"; lit "object"; lit "numeric"; lit "name"; lit "matrix"; lit "array"; lit "function"].
Definition s3_class (e : expr) : Prop := exists t, e = EAtom (AStr t) /\ ~ In (no_quotes t) base_classes.
Definition flags_expect_s3_class (fs : list frame) (e : expr) : Prop :=
  exists args a b, equal_expectation e args a b /\ length args <= 2 /\
    ((exists x, applied_to (lit "class") a x) /\ s3_class b \/ s3_class a /\ exists x, applied_to (lit "class") b x).
Definition flags_expect_true_false (fs : list frame) (e : expr) : Prop :=
  exists args a b k, equal_expectation e args a b /\ (k = ATrue \/ k = AFalse) /\ (a = EAtom k \/ b = EAtom k).
Definition flags_expect_type (fs : list frame) (e : expr) : Prop :=
  (exists args a b x, equal_expectation e args a b /\ length args <= 2 /\
     (applied_to (lit "typeof") a x \/ ~ is_call_of (lit "typeof") a /\ applied_to (lit "typeof") b x)) \/
  (exists args c x ty, calls (lit "expect_true") e args /\ length args <= 1 /\ given args (lit "object") 1 c /\
     In ty ([lit "logical"; lit "integer"; lit "double"; lit "complex"; lit "character"; lit "raw"; lit "list"; lit "null"; lit "symbol"; lit "expression"; lit "language"; lit "environment"; lit "pairlist"]) /\
     applied_to (lit "is." ++ ty) c x).
(** [expect_true(grepl(pattern, x))]; also piped, but then not when [!] stands
    before the pipe. *)
Definition flags_expect_match (outer : text) (fs : list frame) (e : expr) : Prop :=
  exists args, calls outer e args /\
  ((exists nl l fs', fs = FBinR BPipe nl l :: fs' /\ composition outer (lit "grepl") fs e /\
      ~ composition outer (lit "grepl") [] e /\ forall fs'', fs' <> FUn UNot :: fs'') \/
   ((composition outer (lit "grepl") [] e \/ ~ composition outer (lit "grepl") fs e) /\
    exists c gargs p x, given args (lit "object") 1 c /\ calls (lit "grepl") c gargs /\
      given gargs (lit "pattern") 1 p /\ given gargs (lit "x") 2 x)).

(** *** sprintf() *)
(** A width or a precision: digits, or a star that takes an argument. *)
Inductive amount : text -> nat -> Prop :=
| star_amount : amount (lit "*") 1
| digits_amount : forall d, Forall digit d -> amount d 0.
Inductive precision : text -> nat -> Prop :=
| no_precision : precision [] 0
| some_precision : forall a k, amount a k -> precision (lit "." ++ a) k.
Inductive position : text -> option N -> Prop :=
| no_position : position [] None
| some_position : forall d v, d <> [] -> stands_for d v -> (v < 2 ^ 64)%N -> position (d ++ lit "$") (Some v).
(** [%], a position, flags, a width, a precision and a type; how many arguments
    it takes, and its position. *)
Inductive specifier : text -> nat -> option N -> Prop :=
| a_specifier : forall w p v f a i q j c,
    Forall (fun x => is_ws x = true) w -> position p v -> Forall (fun x => In x (lit "-+ #0")) f ->
    amount a i -> precision q j -> In c (lit "dioxXfeEgGaAs") ->
    specifier (lit "%" ++ w ++ p ++ f ++ a ++ q ++ [c]) (1 + i + j) v.
(** A format, its specifiers, and the text between them. *)
Inductive format_of : text -> list (nat * option N) -> text -> Prop :=
| format_end : format_of [] [] []
| format_char : forall c t l k, c <> 37%N -> format_of t l k -> format_of (c :: t) l (c :: k)
| format_percent : forall w t l k, Forall (fun x => is_ws x = true) w -> format_of t l k ->
    format_of (lit "%" ++ w ++ lit "%" ++ t) l (lit "%" ++ k)
| format_specifier : forall u i v t l k, specifier u i v -> format_of t l k -> format_of (u ++ t) ((i, v) :: l) k.
(** The number of arguments a format takes: the largest position, if some
    specifier has one. *)
Definition positions (l : list (nat * option N)) : list N :=
  flat_map (fun x : nat * option N => match snd x with Some v => [v] | None => [] end) l.
Definition takes (l : list (nat * option N)) : N :=
  match positions l with
  | [] => N.of_nat (list_sum (map fst l))
  | ps => fold_right N.max 0%N ps
  end.
Definition flags_sprintf (fs : list frame) (e : expr) : Prop :=
  exists args nm t, calls (lit "sprintf") e args /\ (forall nl l fs', fs <> FBinR BPipe nl l :: fs') /\
    chosen args (lit "fmt") 1 (nm, Some (EAtom (AStr t))) /\
    ((forall l k, ~ format_of t l k) \/
     exists l k, format_of t l k /\
       (l = [] \/
        takes l <> N.of_nat (length (unnamed_args args) - match nm with None => 1 | Some _ => 0 end))).

(** ** All the rules *)
Definition meanings (s : settings) : list (text * (list frame -> expr -> Prop)) :=
  [ (lit "all_equal", flags_all_equal);
    (lit "any_duplicated", composition (lit "any") (lit "duplicated"));
    (lit "any_is_na", composition (lit "any") (lit "is.na")); (lit "any_is_na", flags_na_in);
    (lit "assignment", flags_assignment (prefer_arrow s));
    (lit "browser", flags_browser);
    (lit "class_equals", flags_class_equals); (lit "class_equals", flags_class_identical);
    (lit "coalesce", flags_coalesce);
    (lit "comparison_negation", flags_comparison_negation);
    (lit "download_file", flags_download_file);
    (lit "duplicated_arguments", flags_duplicated_arguments (repeated_ok s));
    (lit "empty_assignment", flags_empty_assignment);
    (lit "equals_na", flags_equals_na);
    (lit "equals_nan", flags_equals_nan);
    (lit "equals_null", flags_equals_null);
    (lit "expect_length", flags_expect_length);
    (lit "expect_match", flags_expect_match (lit "expect_true"));
    (lit "expect_named", flags_expect_named);
    (lit "expect_no_match", flags_expect_match (lit "expect_false"));
    (lit "expect_not", flags_expect_not);
    (lit "expect_null", flags_expect_null);
    (lit "expect_s3_class", flags_expect_s3_class);
    (lit "expect_true_false", flags_expect_true_false);
    (lit "expect_type", flags_expect_type);
    (lit "fixed_regex", flags_fixed_regex);
    (lit "for_loop_dup_index", flags_for_loop_dup_index);
    (lit "for_loop_index", flags_for_loop_index);
    (lit "grepv", flags_grepv);
    (lit "if_always_true", flags_if_always_true);
    (lit "implicit_assignment", flags_implicit_assignment (assign_ok s));
    (lit "internal_function", flags_internal_function);
    (lit "is_numeric", flags_is_numeric);
    (lit "length_levels", composition (lit "length") (lit "levels"));
    (lit "length_test", flags_length_test);
    (lit "lengths", flags_lengths);
    (lit "list2df", flags_list2df);
    (lit "matrix_apply", flags_matrix_apply);
    (lit "numeric_leading_zero", flags_numeric_leading_zero);
    (lit "outer_negation", flags_outer_negation);
    (lit "redundant_equals", flags_redundant_equals);
    (lit "redundant_ifelse", flags_redundant_ifelse);
    (lit "repeat", flags_repeat);
    (lit "sample_int", flags_sample_int);
    (lit "seq", flags_seq);
    (lit "seq2", flags_seq2);
    (lit "sort", flags_sort);
    (lit "sprintf", flags_sprintf);
    (lit "string_boundary", flags_string_boundary);
    (lit "system_file", flags_system_file);
    (lit "true_false_symbol", flags_true_false_symbol); (lit "true_false_symbol", flags_true_false_variable);
    (lit "undesirable_function", flags_undesirable (undesirable s));
    (lit "unnecessary_nesting", flags_unnecessary_nesting);
    (lit "unreachable_code", fun fs e => exists r rs, unreachable s fs e = ROk (r :: rs));
    (lit "vector_logic", flags_vector_logic);
    (lit "which_grepl", composition (lit "which") (lit "grepl")) ].
(** The rule [n] is on, and [e] is code it is meant to report. *)
Definition meant (s : settings) (n : text) (fs : list frame) (e : expr) : Prop :=
  on s n = true /\ exists m, In (n, m) (meanings s) /\ m fs e.

(** The variable [v] is somewhere in [q]. *)
Definition appears (v : text) (q : expr) : Prop := exists fs, plug fs (EAtom (AId v)) = q.
