(** Where in a file the rules look, and all the rules there are. *)
From Verif Require Export Model.Traverse Spec.RDocumented.

(** Every part of an expression is looked at, except the function of a call and
    what [[ ]], [[[ ]]], [$] or [@] is applied to. *)
Definition looked_into (f : frame) : Prop :=
  match f with FCallF _ | FSubX _ _ | FExtract _ _ => False | _ => True end.
(** A node is reached if all the parts it is in are looked at; and the function
    of a call is looked at if it is [pkg::name]. *)
Definition reached (fs : list frame) (e : expr) : Prop :=
  Forall looked_into fs \/
  exists args fs' p i n, fs = FCallF args :: fs' /\ e = EAtom (ANs p i n) /\ Forall looked_into fs'.

(** The rules that look at one expression, in alphabetical order.  Some rules
    look for two kinds of code. *)
Definition all_rules (s : settings) : list (text * rule_fn) :=
  [ (lit "all_equal", total all_equal);
    (lit "any_duplicated", total any_duplicated);
    (lit "any_is_na", total any_is_na); (lit "any_is_na", total any_is_na_2);
    (lit "assignment", total (assignment (prefer_arrow s)));
    (lit "browser", total browser);
    (lit "class_equals", total class_equals); (lit "class_equals", total class_identical);
    (lit "coalesce", total coalesce);
    (lit "comparison_negation", total comparison_negation);
    (lit "download_file", total download_file);
    (lit "duplicated_arguments", failing (duplicated_arguments (repeated_ok s)));
    (lit "empty_assignment", total empty_assignment);
    (lit "equals_na", total equals_na);
    (lit "equals_nan", total equals_nan);
    (lit "equals_null", total equals_null);
    (lit "expect_length", total expect_length);
    (lit "expect_match", total expect_match);
    (lit "expect_named", total expect_named);
    (lit "expect_no_match", total expect_no_match);
    (lit "expect_not", total expect_not);
    (lit "expect_null", total expect_null);
    (lit "expect_s3_class", total expect_s3_class);
    (lit "expect_true_false", total expect_true_false);
    (lit "expect_type", total expect_type);
    (lit "fixed_regex", total fixed_regex);
    (lit "for_loop_dup_index", total for_loop_dup_index);
    (lit "for_loop_index", total for_loop_index);
    (lit "grepv", total grepv);
    (lit "if_always_true", failing if_always_true);
    (lit "implicit_assignment", total (implicit_assignment (assign_ok s)));
    (lit "internal_function", total internal_function);
    (lit "is_numeric", total is_numeric);
    (lit "length_levels", total length_levels);
    (lit "length_test", failing length_test);
    (lit "lengths", failing lengths_rule);
    (lit "list2df", total list2df);
    (lit "matrix_apply", total matrix_apply);
    (lit "numeric_leading_zero", total numeric_leading_zero);
    (lit "outer_negation", total outer_negation);
    (lit "redundant_equals", total redundant_equals);
    (lit "redundant_ifelse", total redundant_ifelse);
    (lit "repeat", total repeat_loop);
    (lit "sample_int", failing sample_int);
    (lit "seq", total seq_rule);
    (lit "seq2", total seq2_rule);
    (lit "sort", total sort_rule);
    (lit "sprintf", total sprintf_rule);
    (lit "string_boundary", total string_boundary);
    (lit "system_file", total system_file);
    (lit "true_false_symbol", total true_false_symbol); (lit "true_false_symbol", total true_false_symbol_for);
    (lit "undesirable_function", total (undesirable_function (undesirable s)));
    (lit "unnecessary_nesting", total unnecessary_nesting);
    (lit "unreachable_code", unreachable s);
    (lit "vector_logic", total vector_logic);
    (lit "which_grepl", total which_grepl) ].

(** The rule [n], if it is on, reports [r] when it looks at [e]. *)
Definition fires (s : settings) (n : text) (fs : list frame) (e : expr) (r : report) : Prop :=
  on s n = true /\ exists rule rs, In (n, rule) (all_rules s) /\ rule fs e = ROk rs /\ In r rs.
(** A rule that is on fails when it looks at [e]. *)
Definition fails (s : settings) (n : text) (fs : list frame) (e : expr) : Prop :=
  on s n = true /\ exists rule, In (n, rule) (all_rules s) /\ forall rs, rule fs e <> ROk rs.

(** unreachable_code looks only at functions. *)
Definition only_functions (f : rule_fn) : Prop :=
  forall fs e, match e with EFun _ _ => True | _ => f fs e = ROk [] end.

(** The same options for every rule (which rules are on may differ). *)
Definition same_options (s s' : settings) : Prop :=
  prefer_arrow s = prefer_arrow s' /\ assign_ok s = assign_ok s' /\ repeated_ok s = repeated_ok s' /\
  undesirable s = undesirable s' /\ unreachable s = unreachable s'.
(** Settings of the examples: every rule on, nothing in the lists. *)
Definition everything_on : settings :=
  mk_settings (fun _ => true) true [] [] [] (fun _ _ => ROk []).
