(** How the rules are applied to the expressions of a file
    (/repo/crates/jarl-core/src/analyze/*.rs, check.rs:154-159).

    A rule that returns an error, or panics, ends the whole check of the file
    ([?] everywhere); [res] carries this. *)
From Verif Require Export Model.MoreLints.

(** A rule, as the dispatchers see it: most report at most once
    (checker.rs:35-41 takes an option). *)
Definition rule_fn := list frame -> expr -> res (list report).
Definition listed (o : option report) : list report := match o with Some r => [r] | None => [] end.
Definition total (f : list frame -> expr -> option report) : rule_fn := fun fs e => ROk (listed (f fs e)).
Definition failing (f : list frame -> expr -> res (option report)) : rule_fn :=
  fun fs e => rbind (f fs e) (fun o => ROk (listed o)).

(** checker.rs:8-21: the rules that are on, and the options
    (rule_options/*.rs).  unreachable_code is modelled in Model/Cfg.v on its own
    statements; here it is an argument. *)
Record settings := mk_settings {
  on : text -> bool;
  prefer_arrow : bool;
  assign_ok : list text;
  repeated_ok : list text;
  undesirable : list text;
  unreachable : rule_fn
}.

(** Reports are filed under the name of the rule. *)
Definition found := (text * report)%type.

(** checker.rs:43-45: a rule that is off is not run. *)
Fixpoint run_rules (s : settings) (rules : list (text * rule_fn)) (fs : list frame) (e : expr) : res (list found) :=
  match rules with
  | [] => ROk []
  | (n, f) :: more =>
      if on s n then
        rbind (f fs e) (fun rs => rbind (run_rules s more fs e) (fun l => ROk (map (pair n) rs ++ l)))
      else run_rules s more fs e
  end.

(** analyze/call.rs:38-133 *)
Definition on_call (s : settings) : list (text * rule_fn) :=
  [ (lit "all_equal", total all_equal); (lit "any_duplicated", total any_duplicated);
    (lit "any_is_na", total any_is_na); (lit "browser", total browser);
    (lit "class_equals", total class_identical); (lit "download_file", total download_file);
    (lit "duplicated_arguments", failing (duplicated_arguments (repeated_ok s)));
    (lit "expect_length", total expect_length); (lit "expect_match", total expect_match);
    (lit "expect_named", total expect_named); (lit "expect_no_match", total expect_no_match);
    (lit "expect_not", total expect_not); (lit "expect_null", total expect_null);
    (lit "expect_s3_class", total expect_s3_class); (lit "expect_type", total expect_type);
    (lit "expect_true_false", total expect_true_false); (lit "fixed_regex", total fixed_regex);
    (lit "grepv", total grepv); (lit "length_levels", total length_levels);
    (lit "length_test", failing length_test); (lit "lengths", failing lengths_rule);
    (lit "list2df", total list2df); (lit "matrix_apply", total matrix_apply);
    (lit "outer_negation", total outer_negation); (lit "redundant_ifelse", total redundant_ifelse);
    (lit "sample_int", failing sample_int); (lit "seq2", total seq2_rule);
    (lit "sprintf", total sprintf_rule); (lit "system_file", total system_file);
    (lit "undesirable_function", total (undesirable_function (undesirable s)));
    (lit "which_grepl", total which_grepl) ].
(** analyze/binary_expression.rs:19-63 *)
Definition on_binary (s : settings) : list (text * rule_fn) :=
  [ (lit "any_is_na", total any_is_na_2); (lit "assignment", total (assignment (prefer_arrow s)));
    (lit "class_equals", total class_equals); (lit "vector_logic", total vector_logic);
    (lit "empty_assignment", total empty_assignment); (lit "equals_na", total equals_na);
    (lit "equals_nan", total equals_nan); (lit "equals_null", total equals_null);
    (lit "implicit_assignment", total (implicit_assignment (assign_ok s)));
    (lit "is_numeric", total is_numeric); (lit "redundant_equals", total redundant_equals);
    (lit "seq", total seq_rule); (lit "string_boundary", total string_boundary) ].
(** analyze/anyvalue.rs:7-12 *)
Definition on_value : list (text * rule_fn) := [ (lit "numeric_leading_zero", total numeric_leading_zero) ].
(** analyze/identifier.rs:7-12 *)
Definition on_identifier : list (text * rule_fn) := [ (lit "true_false_symbol", total true_false_symbol) ].
(** analyze/namespace_expression.rs:7-15 *)
Definition on_namespace : list (text * rule_fn) := [ (lit "internal_function", total internal_function) ].
(** analyze/for_loop.rs:8-16, and analyze/expression.rs:57 for the variable. *)
Definition on_for : list (text * rule_fn) :=
  [ (lit "for_loop_index", total for_loop_index); (lit "for_loop_dup_index", total for_loop_dup_index);
    (lit "true_false_symbol", total true_false_symbol_for) ].
(** analyze/function_definition.rs:7-19 *)
Definition on_function (s : settings) : list (text * rule_fn) := [ (lit "unreachable_code", unreachable s) ].
(** analyze/if_.rs:9-20 *)
Definition on_if : list (text * rule_fn) :=
  [ (lit "coalesce", total coalesce); (lit "if_always_true", failing if_always_true);
    (lit "unnecessary_nesting", total unnecessary_nesting) ].
(** analyze/subset.rs:7-12, analyze/unary_expression.rs:7-12, analyze/while_.rs:7-12 *)
Definition on_subset : list (text * rule_fn) := [ (lit "sort", total sort_rule) ].
Definition on_unary : list (text * rule_fn) := [ (lit "comparison_negation", total comparison_negation) ].
Definition on_while : list (text * rule_fn) := [ (lit "repeat", total repeat_loop) ].

(** [a?; b?] *)
Definition rseq (a b : res (list found)) : res (list found) :=
  rbind a (fun x => rbind b (fun y => ROk (x ++ y))).

(** analyze/expression.rs:22-133.  The function of a call is looked at only if
    it is [pkg::name] (:44-46); what a subset or an extraction is applied to is
    not looked at. *)
Fixpoint check_expression (s : settings) (fs : list frame) (e : expr) : res (list found) :=
  match e with
  | EAtom (ANum _ | AStr _) => run_rules s on_value fs e
  | EAtom (AId _) => run_rules s on_identifier fs e
  | EAtom (ANs _ _ _) => run_rules s on_namespace fs e
  | EAtom _ => ROk []
  | EBin o nl l r =>
      rseq (run_rules s (on_binary s) fs e)
        (rseq (check_expression s (FBinL o nl r :: fs) l) (check_expression s (FBinR o nl l :: fs) r))
  | EBraces es =>
      (fix go (pre es : list expr) :=
         match es with
         | [] => ROk []
         | x :: post => rseq (check_expression s (FBraces pre post :: fs) x) (go (pre ++ [x]) post)
         end) [] es
  | ECall f args =>
      rseq (run_rules s (on_call s) fs e)
        (rseq (match f with EAtom (ANs _ _ _) => run_rules s on_namespace (FCallF args :: fs) f | _ => ROk [] end)
          ((fix go (pre args : list arg) :=
              match args with
              | [] => ROk []
              | (n, v) :: post =>
                  rseq (match v with Some x => check_expression s (FCallA f pre n post :: fs) x | None => ROk [] end)
                    (go (pre ++ [(n, v)]) post)
              end) [] args))
  | EFor v q b =>
      rseq (run_rules s on_for fs e)
        (rseq (check_expression s (FForS v b :: fs) q) (check_expression s (FForB v q :: fs) b))
  | EFun ps b =>
      rseq (run_rules s (on_function s) fs e)
        (rseq ((fix go (pre ps : list param) :=
              match ps with
              | [] => ROk []
              | (n, d) :: post =>
                  rseq (match d with Some x => check_expression s (FFunP pre n post b :: fs) x | None => ROk [] end)
                    (go (pre ++ [(n, d)]) post)
              end) [] ps)
          (check_expression s (FFunB ps :: fs) b))
  | EIf c t el =>
      rseq (run_rules s on_if fs e)
        (rseq (check_expression s (FIfC t el :: fs) c)
          (rseq (check_expression s (FIfT c el :: fs) t)
            (match el with Some x => check_expression s (FIfE c t :: fs) x | None => ROk [] end)))
  | EParen x => check_expression s (FParen :: fs) x
  | ERepeat b => check_expression s (FRepeat :: fs) b
  | ESub d x args =>
      rseq (if d then ROk [] else run_rules s on_subset fs e)
        ((fix go (pre args : list arg) :=
              match args with
              | [] => ROk []
              | (n, v) :: post =>
                  rseq (match v with Some y => check_expression s (FSubA d x pre n post :: fs) y | None => ROk [] end)
                    (go (pre ++ [(n, v)]) post)
              end) [] args)
  | EUn u x => rseq (run_rules s on_unary fs e) (check_expression s (FUn u :: fs) x)
  | EWhile c b =>
      rseq (run_rules s on_while fs e)
        (rseq (check_expression s (FWhileC b :: fs) c) (check_expression s (FWhileB c :: fs) b))
  | EExtract _ _ _ => ROk []
  end.

(** check.rs:157-159.  Every report comes with the number of its statement. *)
Fixpoint check_statements (s : settings) (i : nat) (es : prog) : res (list (nat * found)) :=
  match es with
  | [] => ROk []
  | e :: more =>
      rbind (check_expression s [] e) (fun a =>
        rbind (check_statements s (S i) more) (fun b => ROk (map (pair i) a ++ b)))
  end.
Definition check_file (s : settings) (p : prog) : res (list (nat * found)) := check_statements s 0 p.
