(** Rules that rewrite an expression.

    Every rule here takes a node of the syntax tree, with the frames around it
    (innermost first), and returns the report it makes, if any: the node the
    fix replaces and the text of the fix, as tokens.

    Simplifications: comments do not exist in this model, so the [to_skip] flag
    computed from node_contains_comments is always false; the text of the
    message is left out (Model/Driver.v carries it as an opaque rule name);
    fixes are token sequences, so the exact spacing inside a fix is left out. *)
From Verif Require Export Model.RExpr Model.Base.

(** A report: the node whose range the fix has, with the frames around it, and
    the fix ([None] for an empty or skipped one). *)
Record report := mk_report {
  at_frames : list frame;
  at_node : expr;
  new_text : option (list tok)
}.

(** ** Arguments (utils.rs:104-217) *)

(** utils.rs:105-112 *)
Definition get_unnamed_args (args : list arg) : list arg :=
  filter (fun a => match fst a with None => true | Some _ => false end) args.
(** utils.rs:115-122 *)
Definition get_named_args (args : list arg) : list arg :=
  filter (fun a => match fst a with None => false | Some _ => true end) args.
Definition has_name (n : text) (a : arg) : bool :=
  match fst a with Some m => teqb m n | None => false end.
(** utils.rs:125-139 *)
Definition get_arg_by_name (args : list arg) (n : text) : option arg :=
  find (has_name n) args.
(** utils.rs:143-145; [pos] counts from 1. *)
Definition get_arg_by_position (args : list arg) (pos : nat) : option arg :=
  nth_error args (pos - 1).
(** utils.rs:149-151 *)
Definition get_unnamed_arg_by_position (args : list arg) (pos : nat) : option arg :=
  nth_error (get_unnamed_args args) (pos - 1).
(** utils.rs:158-167 *)
Definition get_arg_by_name_then_position (args : list arg) (n : text) (pos : nat) : option arg :=
  match get_arg_by_name args n with
  | Some a => Some a
  | None => get_unnamed_arg_by_position args pos
  end.
(** utils.rs:171-173 *)
Definition is_argument_present (args : list arg) (n : text) (pos : nat) : bool :=
  match get_arg_by_name_then_position args n pos with Some _ => true | None => false end.
(** utils.rs:177-217 *)
Definition drop_arg_by_name_or_position (args : list arg) (n : text) (pos : nat) : option (list arg) :=
  if existsb (has_name n) args then Some (filter (fun a => negb (has_name n a)) args)
  else
    let by_pos := firstn (pos - 1) args ++ skipn pos args in
    if length by_pos =? length args then None else Some by_pos.

(** utils.rs:225-267 *)
Definition get_function_name (f : expr) : text :=
  match f with
  | EAtom (AId x) => x
  | EAtom (ANs _ _ n) => n
  | EExtract (EAtom (AId a)) op b => a ++ op ++ b
  | EAtom (AOther t) => if teqb t (lit "return") then lit "return" else []
  | _ => []
  end.

(** ** Text of fixes *)
Definition id_tok (n : text) : tok := TAtom (AId n).
(** [n(content)] *)
Definition call_text (n : text) (content : list tok) : list tok :=
  id_tok n :: TLp :: content ++ [TRp].

Definition tok_eq_dec : forall a b : tok, {a = b} + {a <> b}.
Proof.
  assert (Ht : forall a b : text, {a = b} + {a <> b}) by (apply list_eq_dec, N.eq_dec).
  assert (Ha : forall a b : atom, {a = b} + {a <> b}) by (decide equality; decide equality).
  assert (Hb : forall a b : binop, {a = b} + {a <> b}) by (decide equality; decide equality).
  decide equality; decide equality.
Defined.
(** Comparison of the text of two nodes. *)
Definition same_text (a b : list tok) : bool :=
  if list_eq_dec tok_eq_dec a b then true else false.

(** ** Position tests (utils_ast.rs) *)

(** utils_ast.rs:71-88: the node is the operand of a [!] that is not itself an
    operand of a unary operator. *)
Definition parent_is_bang_unary (fs : list frame) : bool :=
  match fs with
  | FUn UNot :: FUn _ :: _ => false
  | FUn UNot :: _ => true
  | _ => false
  end.
(** utils_ast.rs:62-67 *)
Definition has_previous_pipe (fs : list frame) : bool :=
  match fs with FBinR BPipe _ _ :: _ => true | _ => false end.
(** utils_ast.rs:16-50, and class_equals.rs:167-181 *)
Definition parent_is_condition (fs : list frame) : bool :=
  match fs with (FIfC _ _ | FWhileC _) :: _ => true | _ => false end.

(** utils.rs:310-330: [outer(inner(content))], on the arguments of [outer]. *)
Definition is_unnamed (a : arg) : bool := match fst a with None => true | _ => false end.
Definition nested_content (args : list arg) (inner : text) : option (list tok) :=
  match find is_unnamed args with
  | Some (_, Some (ECall g gargs)) =>
      if teqb (get_function_name g) inner then Some (args_toks gargs) else None
  | _ => None
  end.
(** utils.rs:297-375: the nested, and the two piped forms.  Returns the text of
    the inner arguments and the node to replace. *)
Definition get_nested_functions_content (fs : list frame) (e : expr) (outer inner : text)
  : option (list tok * (list frame * expr)) :=
  match e with
  | ECall f args =>
      if negb (teqb (get_function_name f) outer) then None
      else
        match nested_content args inner with
        | Some c => Some (c, (fs, e))
        | None =>
            match fs with
            | FBinL BPipe nl r :: fs' =>
                (* the call is on the left of a pipe: it is its own [left] *)
                if teqb (get_function_name f) inner
                then Some (args_toks args, (fs', EBin BPipe nl e r)) else None
            | FBinR BPipe nl l :: fs' =>
                match l with
                | ECall g gargs =>
                    if teqb (get_function_name g) inner
                    then Some (args_toks gargs, (fs', EBin BPipe nl l e)) else None
                | EBin BPipe _ c (ECall g gargs) =>
                    if teqb (get_function_name g) inner &&
                       negb (existsb is_unnamed gargs)
                    then Some (toks c, (fs', EBin BPipe nl l e)) else None
                | _ => None
                end
            | _ => None
            end
        end
  | _ => None
  end.

(** ** The rules *)

Definition negated (c : cmpop) : cmpop :=
  match c with
  | CGt => CLe | CGe => CLt | CLt => CGe | CLe => CGt | CEq => CNe | CNe => CEq
  end.

(** lints/base/comparison_negation/comparison_negation.rs:29-95 *)
Definition comparison_negation (fs : list frame) (e : expr) : option report :=
  match e with
  | EUn UNot (EParen (EBin (BCmp c) _ l r)) =>
      Some (mk_report fs e (Some (toks l ++ TOp (BCmp (negated c)) :: toks r)))
  | _ => None
  end.

(** lints/base/outer_negation/outer_negation.rs:33-115.  The operator of the
    argument is not looked at. *)
Definition outer_negation (fs : list frame) (e : expr) : option report :=
  if parent_is_bang_unary fs then None
  else
    match e with
    | ECall (EAtom (AId f)) [(_, Some (EUn _ x))] =>
        if teqb f (lit "all") || teqb f (lit "any") then
          match x with
          | EUn _ _ => None
          | _ =>
              Some (mk_report fs e (Some
                (TBang :: call_text (if teqb f (lit "any") then lit "all" else lit "any") (toks x))))
          end
        else None
    | _ => None
    end.

(** lints/base/redundant_ifelse/redundant_ifelse.rs:40-136 *)
Definition ifelse_formals (f : text) : option (text * text * text) :=
  if teqb f (lit "ifelse") then Some (lit "test", lit "yes", lit "no")
  else if teqb f (lit "if_else") then Some (lit "condition", lit "true", lit "false")
  else if teqb f (lit "fifelse") then Some (lit "test", lit "yes", lit "no")
  else None.
Definition redundant_ifelse (fs : list frame) (e : expr) : option report :=
  match e with
  | ECall f args =>
      match ifelse_formals (get_function_name f) with
      | None => None
      | Some (a, b, c) =>
          if negb (length args =? 3) then None
          else
            match get_arg_by_name_then_position args a 1,
                  get_arg_by_name_then_position args b 2,
                  get_arg_by_name_then_position args c 3 with
            | Some (_, Some x), Some (_, Some y), Some (_, Some z) =>
                match y, z with
                | EAtom ATrue, EAtom AFalse => Some (mk_report fs e (Some (toks x)))
                | EAtom AFalse, EAtom ATrue =>
                    Some (mk_report fs e (Some (TBang :: TLp :: toks x ++ [TRp])))
                | EAtom ATrue, EAtom ATrue | EAtom AFalse, EAtom AFalse =>
                    Some (mk_report fs e None)
                | _, _ => None
                end
            | _, _, _ => None
            end
      end
  | _ => None
  end.

(** lints/base/redundant_equals/redundant_equals.rs:48-113 *)
Definition redundant_equals (fs : list frame) (e : expr) : option report :=
  match e with
  | EBin (BCmp CEq) _ l r =>
      match l, r with
      | EAtom ATrue, _ => Some (mk_report fs e (Some (toks r)))
      | _, EAtom ATrue => Some (mk_report fs e (Some (toks l)))
      | EAtom AFalse, _ => Some (mk_report fs e (Some (TBang :: toks r)))
      | _, EAtom AFalse => Some (mk_report fs e (Some (TBang :: toks l)))
      | _, _ => None
      end
  | EBin (BCmp CNe) _ l r =>
      match l, r with
      | EAtom ATrue, _ => Some (mk_report fs e (Some (TBang :: toks r)))
      | _, EAtom ATrue => Some (mk_report fs e (Some (TBang :: toks l)))
      | EAtom AFalse, _ => Some (mk_report fs e (Some (toks r)))
      | _, EAtom AFalse => Some (mk_report fs e (Some (toks l)))
      | _, _ => None
      end
  | _ => None
  end.

(** Rules that rewrite a call of [outer] on a call of [inner]:
    lints/base/any_is_na/any_is_na.rs:32-51 *)
Definition any_is_na (fs : list frame) (e : expr) : option report :=
  match get_nested_functions_content fs e (lit "any") (lit "is.na") with
  | Some (c, (fs', e')) => Some (mk_report fs' e' (Some (call_text (lit "anyNA") c)))
  | None => None
  end.
(** lints/base/any_is_na/any_is_na.rs:53-98 *)
Definition any_is_na_2 (fs : list frame) (e : expr) : option report :=
  match e with
  | EBin (BSpecial t) _ l r =>
      if teqb t (lit "%in%") then
        match l, r with
        | _, EAtom (ANa _) => None
        | EAtom (ANa _), _ => Some (mk_report fs e (Some (call_text (lit "anyNA") (toks r))))
        | _, _ => None
        end
      else None
  | _ => None
  end.
(** lints/base/any_duplicated/any_duplicated.rs:50-65 *)
Definition any_duplicated (fs : list frame) (e : expr) : option report :=
  match get_nested_functions_content fs e (lit "any") (lit "duplicated") with
  | Some (c, (fs', e')) =>
      Some (mk_report fs' e' (Some
        (call_text (lit "anyDuplicated") c ++ [TOp (BCmp CGt); TAtom (ANum (lit "0"))])))
  | None => None
  end.
(** lints/base/length_levels/length_levels.rs:41-56 *)
Definition length_levels (fs : list frame) (e : expr) : option report :=
  match get_nested_functions_content fs e (lit "length") (lit "levels") with
  | Some (c, (fs', e')) => Some (mk_report fs' e' (Some (call_text (lit "nlevels") c)))
  | None => None
  end.
(** lints/base/which_grepl/which_grepl.rs:46-61 *)
Definition which_grepl (fs : list frame) (e : expr) : option report :=
  match get_nested_functions_content fs e (lit "which") (lit "grepl") with
  | Some (c, (fs', e')) => Some (mk_report fs' e' (Some (call_text (lit "grep") c)))
  | None => None
  end.

(** lints/base/coalesce/coalesce.rs:193-217 *)
Definition has_multiple_expressions (e : expr) : bool :=
  match e with EBraces es => 1 <? length es | _ => false end.
Definition single_expression (e : expr) : expr :=
  match e with EBraces [x] => x | _ => e end.
Definition given_values (args : list arg) : list expr :=
  flat_map (fun a : arg => match snd a with Some v => [v] | None => [] end) args.
(** lints/base/coalesce/coalesce.rs:65-190.  [x %||% y] with the text of both. *)
Definition coalesce (fs : list frame) (e : expr) : option report :=
  match e with
  | EIf c t (Some el) =>
      let skip := has_multiple_expressions t || has_multiple_expressions el in
      let out (x y : expr) :=
        Some (mk_report fs e
          (if skip then None else Some (toks x ++ TOp (BSpecial (lit "%||%")) :: toks (single_expression y)))) in
      match c with
      | ECall f args =>
          if teqb (get_function_name f) (lit "is.null") then
            match given_values args with
            | [x] => if same_text (toks x) (toks (single_expression el)) then out x t else None
            | _ => None
            end
          else None
      | EUn UNot (ECall f args) =>
          if teqb (get_function_name f) (lit "is.null") then
            match given_values args with
            | [x] => if same_text (toks x) (toks (single_expression t)) then out x el else None
            | _ => None
            end
          else None
      | _ => None
      end
  | _ => None
  end.

(** lints/base/true_false_symbol/true_false_symbol.rs:44-91, on an identifier
    that is an expression. *)
Definition true_false_symbol (fs : list frame) (e : expr) : option report :=
  match e with
  | EAtom (AId x) =>
      if teqb x (lit "T") || teqb x (lit "F") then
        match fs with
        | FCallF _ :: _ => None
        | FExtract _ _ :: _ => None
        | (FBinL BTilde _ _ | FBinR BTilde _ _) :: _ => None
        | _ => Some (mk_report fs e (Some [TAtom (if teqb x (lit "T") then ATrue else AFalse)]))
        end
      else None
  | _ => None
  end.
(** The same on the variable of a [for] (analyze/expression.rs:54-59): the fix
    replaces the variable, so the [for] node gets a new text. *)
Definition true_false_symbol_for (fs : list frame) (e : expr) : option report :=
  match e with
  | EFor v s b =>
      if teqb v (lit "T") || teqb v (lit "F") then
        Some (mk_report fs e (Some
          (TFor :: TLp :: TAtom (if teqb v (lit "T") then ATrue else AFalse) :: TIn ::
           toks s ++ TRp :: toks b)))
      else None
  | _ => None
  end.

(** lints/base/equals_na/equals_na.rs:47-129 *)
Definition na_names : list text :=
  [lit "NA"; lit "NA_character_"; lit "NA_integer_"; lit "NA_real_"; lit "NA_logical_"; lit "NA_complex_"].
Definition is_na_text (e : expr) : bool :=
  match e with
  | EAtom (ANa t) | EAtom (AId t) => existsb (teqb t) na_names
  | _ => false
  end.
Definition equality (o : binop) : option bool :=      (* Some false for [!=] *)
  match o with
  | BCmp CEq => Some true
  | BCmp CNe => Some false
  | BSpecial t => if teqb t (lit "%in%") then Some true else None
  | _ => None
  end.
Definition is_in (o : binop) : bool :=
  match o with BSpecial t => teqb t (lit "%in%") | _ => false end.
Definition maybe_not (b : bool) (ts : list tok) : list tok := if b then ts else TBang :: ts.
Definition equals_na (fs : list frame) (e : expr) : option report :=
  match e with
  | EBin o _ l r =>
      match equality o with
      | Some b =>
          if is_in o && is_na_text l then None
          else if Bool.eqb (is_na_text l) (is_na_text r) then None
          else Some (mk_report fs e (Some
                 (maybe_not b (call_text (lit "is.na") (toks (if is_na_text l then r else l))))))
      | None => None
      end
  | _ => None
  end.
(** lints/base/equals_null/equals_null.rs:53-116 *)
Definition is_null_lit (e : expr) : bool := match e with EAtom ANull => true | _ => false end.
Definition equals_null (fs : list frame) (e : expr) : option report :=
  match e with
  | EBin o _ l r =>
      match equality o with
      | Some b =>
          if Bool.eqb (is_null_lit l) (is_null_lit r) then None
          else Some (mk_report fs e (Some
                 (maybe_not b (call_text (lit "is.null") (toks (if is_null_lit l then r else l))))))
      | None => None
      end
  | _ => None
  end.

(** lints/base/repeat/repeat.rs:44-78.  The reported range is that of
    [while (TRUE)]; the fix replaces the whole loop. *)
Definition repeat_loop (fs : list frame) (e : expr) : option report :=
  match e with
  | EWhile (EAtom ATrue) b =>
      Some (mk_report fs e (Some
        (TRepeat :: match b with EBraces _ => toks b | _ => TLc :: toks b ++ [TRc] end)))
  | _ => None
  end.

(** lints/base/all_equal/all_equal.rs:53-117 *)
Definition all_equal (fs : list frame) (e : expr) : option report :=
  match get_nested_functions_content fs e (lit "isFALSE") (lit "all.equal") with
  | Some (c, (fs', e')) =>
      Some (mk_report fs' e' (Some
        (TBang :: call_text (lit "isTRUE") (call_text (lit "all.equal") c))))
  | None =>
      match e with
      | ECall f _ =>
          if teqb (get_function_name f) (lit "all.equal") then
            if parent_is_bang_unary fs then
              match fs with
              | FUn _ :: fs' =>
                  Some (mk_report fs' (EUn UNot e) (Some (TBang :: call_text (lit "isTRUE") (toks e))))
              | _ => None
              end
            else if parent_is_condition fs then
              Some (mk_report fs e (Some (call_text (lit "isTRUE") (toks e))))
            else None
          else None
      | _ => None
      end
  end.

(** lints/base/class_equals/class_equals.rs:183-248 *)
Definition is_class_call (e : expr) : bool :=
  match e with ECall f _ => teqb (get_function_name f) (lit "class") | _ => false end.
Definition is_string (e : expr) : bool := match e with EAtom (AStr _) => true | _ => false end.
Definition first_arg_text (e : expr) : option (list tok) :=
  match e with
  | ECall _ args => option_map arg_toks (get_arg_by_position args 1)
  | _ => None
  end.
Definition extract_class_and_string (l r : expr) : option (list tok * list tok) :=
  if is_class_call l && is_string r then option_map (fun c => (c, toks r)) (first_arg_text l)
  else if is_string l && is_class_call r then option_map (fun c => (c, toks l)) (first_arg_text r)
  else None.
(** lints/base/class_equals/class_equals.rs:64-127 *)
Definition class_equals (fs : list frame) (e : expr) : option report :=
  match e with
  | EBin o _ l r =>
      match equality o with
      | Some b =>
          if parent_is_condition fs then
            match extract_class_and_string l r with
            | Some (x, c) =>
                Some (mk_report fs e (Some (maybe_not b (call_text (lit "inherits") (x ++ TComma :: c)))))
            | None => None
            end
          else None
      | None => None
      end
  | _ => None
  end.
(** lints/base/class_equals/class_equals.rs:129-165 *)
Definition class_identical (fs : list frame) (e : expr) : option report :=
  match e with
  | ECall f args =>
      if teqb (get_function_name f) (lit "identical") then
        match get_arg_by_position args 1, get_arg_by_position args 2 with
        | Some (_, Some l), Some (_, Some r) =>
            match extract_class_and_string l r with
            | Some (x, c) =>
                Some (mk_report fs e (Some (call_text (lit "inherits") (x ++ TComma :: c))))
            | None => None
            end
        | _, _ => None
        end
      else None
  | _ => None
  end.

(** lints/base/seq/seq.rs:43-117 and lints/base/seq2/seq2.rs:43-123 *)
Definition is_one (e : expr) : bool :=
  match e with EAtom (ANum t) => teqb t (lit "1") || teqb t (lit "1L") | _ => false end.
Definition size_names : list text := [lit "length"; lit "nrow"; lit "ncol"; lit "NROW"; lit "NCOL"].
Definition seq_text (f : text) (c : list tok) : list tok :=
  if teqb f (lit "length") then call_text (lit "seq_along") c
  else call_text (lit "seq_len") (call_text f c).
Definition seq_rule (fs : list frame) (e : expr) : option report :=
  match e with
  | EBin BColon _ l (ECall f args) =>
      if is_one l && existsb (teqb (get_function_name f)) size_names then
        Some (mk_report fs e (Some (seq_text (get_function_name f) (args_toks args))))
      else None
  | _ => None
  end.
Definition seq2_rule (fs : list frame) (e : expr) : option report :=
  match e with
  | ECall f [(None, Some (ECall g gargs))] =>
      if teqb (get_function_name f) (lit "seq") &&
         existsb (teqb (get_function_name g)) size_names then
        Some (mk_report fs e (Some (seq_text (get_function_name g) (args_toks gargs))))
      else None
  | _ => None
  end.

(** lints/base/sort/sort.rs:49-132 *)
Definition sort_rule (fs : list frame) (e : expr) : option report :=
  match e with
  | ESub false x [(None, Some (ECall f args))] =>
      if teqb (get_function_name f) (lit "order") then
        match get_unnamed_args args with
        | [v] =>
            if same_text (arg_toks v) (toks x) then
              let more := flat_map (fun n => match get_arg_by_name args n with Some a => [arg_toks a] | None => [] end)
                            [lit "na.last"; lit "decreasing"; lit "method"] in
              Some (mk_report fs e (Some (call_text (lit "sort") (sep [TComma] (toks x :: more)))))
            else None
        | _ => None
        end
      else None
  | _ => None
  end.

(** lints/base/length_test/length_test.rs:41-100.  An error makes the whole
    file fail. *)
Definition length_test (fs : list frame) (e : expr) : res (option report) :=
  match e with
  | ECall f args =>
      if negb (teqb (get_function_name f) (lit "length")) then ROk None
      else
        match args with
        | [] => ROk None
        | (_, None) :: _ => RErr
        | (_, Some (EBin (BCmp c) _ l r)) :: _ =>
            ROk (Some (mk_report fs e (Some
              (call_text (lit "length") (toks l) ++ TOp (BCmp c) :: toks r))))
        | _ => ROk None
        end
  | _ => ROk None
  end.

(** lints/base/lengths/lengths.rs:48-85 *)
Definition lengths_names : list text := [lit "sapply"; lit "vapply"; lit "map_dbl"; lit "map_int"].
Definition lengths_rule (fs : list frame) (e : expr) : res (option report) :=
  match e with
  | ECall f args =>
      if negb (existsb (teqb (get_function_name f)) lengths_names) then ROk None
      else
        match get_arg_by_name_then_position args (lit "FUN") 2 with
        | None => ROk None
        | Some (_, None) => RErr
        | Some (_, Some g) =>
            if same_text (toks g) [id_tok (lit "length")] then
              match get_arg_by_name_then_position args (lit "x") 1 with
              | None => RPanic
              | Some x => ROk (Some (mk_report fs e (Some (call_text (lit "lengths") (arg_toks x)))))
              end
            else ROk None
        end
  | _ => ROk None
  end.

(** lints/base/sample_int/sample_int.rs:49-109 *)
Definition sample_int (fs : list frame) (e : expr) : res (option report) :=
  match e with
  | ECall f args =>
      if negb (teqb (get_function_name f) (lit "sample")) then ROk None
      else
        match get_arg_by_name_then_position args (lit "n") 1 with
        | None => ROk None
        | Some (_, None) => RPanic
        | Some (_, Some (EBin o _ l r)) =>
            if negb (is_one l) then ROk None
            else
              match o with
              | BColon =>
                  let content :=
                    match drop_arg_by_name_or_position args (lit "n") 1 with
                    | Some more => sep [TComma] [toks r; sep [TComma] (map arg_toks more)]
                    | None => toks r
                    end in
                  ROk (Some (mk_report fs e (Some (call_text (lit "sample.int") content))))
              | _ => ROk None
              end
        | Some _ => ROk None
        end
  | _ => ROk None
  end.

(** lints/base/grepv/grepv.rs:49-91 *)
Definition grepv (fs : list frame) (e : expr) : option report :=
  match e with
  | ECall f args =>
      if teqb (get_function_name f) (lit "grep") && is_argument_present args (lit "value") 5 then
        Some (mk_report fs e (Some (call_text (lit "grepv")
          (match drop_arg_by_name_or_position args (lit "value") 5 with
           | Some more => sep [TComma] (map arg_toks more)
           | None => []
           end))))
      else None
  | _ => None
  end.

(** lints/base/system_file/system_file.rs:44-115 *)
Definition is_file_path (a : arg) : bool :=
  match snd a with
  | Some (ECall (EAtom (AId g)) _) => teqb g (lit "file.path")
  | _ => false
  end.
Definition system_file (fs : list frame) (e : expr) : option report :=
  match e with
  | ECall f args =>
      if teqb (get_function_name f) (lit "system.file") then
        match filter is_file_path (get_unnamed_args args) with
        | [(_, Some (ECall _ gargs))] =>
            match filter (fun a : arg => match snd a with Some _ => true | None => false end) gargs with
            | [] => None
            | parts =>
                Some (mk_report fs e (Some (call_text (lit "system.file")
                  (sep [TComma] (map arg_toks parts) ++ TComma ::
                   sep [TComma] (map arg_toks (get_named_args args))))))
            end
        | _ => None
        end
      else None
  | _ => None
  end.
