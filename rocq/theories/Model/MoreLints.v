(** The other rules that look at one node of the syntax tree.

    Conventions and simplifications as in Model/Lints.v.  A rule without a fix
    reports the node with no new text.  [RErr] is a rule that returns an error:
    the whole file then fails (analyze/expression.rs:22-133 propagates it).
    String tokens hold their source text, quotes included. *)
From Verif Require Export Model.Lints.

Definition reported (fs : list frame) (e : expr) : option report := Some (mk_report fs e None).
Definition fixed_as (fs : list frame) (e : expr) (ts : list tok) : option report :=
  Some (mk_report fs e (Some ts)).

(** ** Assignments *)

(** lints/base/assignment/assignment.rs:37-116.  The option: [true] to prefer
    [<-], [false] to prefer [=].  The reported range is only a part of the node;
    the fix replaces the node. *)
Definition assign_tok (arrow : bool) : tok :=
  if arrow then TOp (BAssign (lit "<-")) else TOp BEq.
Definition assignment (arrow : bool) (fs : list frame) (e : expr) : option report :=
  match e with
  | EBin BEq _ l r =>
      if arrow then fixed_as fs e (toks l ++ assign_tok true :: toks r) else None
  | EBin (BAssign t) _ l r =>
      if teqb t (lit "<-") && negb arrow then fixed_as fs e (toks l ++ assign_tok false :: toks r) else None
  | EBin (BRAssign t) _ l r =>
      if teqb t (lit "->") then fixed_as fs e (toks r ++ assign_tok arrow :: toks l) else None
  | _ => None
  end.

(** lints/base/empty_assignment/empty_assignment.rs:16-53.  A block that holds
    only comments is not represented. *)
Definition is_empty_block (e : expr) : bool :=
  match e with EBraces [] => true | _ => false end.
Definition empty_assignment (fs : list frame) (e : expr) : option report :=
  match e with
  | EBin BEq _ _ r => if is_empty_block r then reported fs e else None
  | EBin (BAssign t) _ _ r => if teqb t (lit "<-") && is_empty_block r then reported fs e else None
  | EBin (BRAssign t) _ l _ => if teqb t (lit "->") && is_empty_block l then reported fs e else None
  | _ => None
  end.

(** lints/base/implicit_assignment/implicit_assignment.rs:45-196 *)
Definition arrow_op (o : binop) : bool :=
  match o with
  | BAssign t => teqb t (lit "<-") || teqb t (lit "<<-")
  | BRAssign t => teqb t (lit "->") || teqb t (lit "->>")
  | _ => false
  end.
Definition in_braces (f : frame) : bool := match f with FBraces _ _ => true | _ => false end.
(** The first frame that is a braced block or a [k] is a [k]. *)
Fixpoint before_braces (k : frame -> bool) (fs : list frame) : bool :=
  match fs with
  | [] => false
  | f :: fs' => if in_braces f then false else if k f then true else before_braces k fs'
  end.
Definition is_argument (f : frame) : bool :=
  match f with FCallA _ _ _ _ | FSubA _ _ _ _ _ => true | _ => false end.
Definition in_if (f : frame) : bool :=
  match f with FIfC _ _ | FIfT _ _ | FIfE _ _ => true | _ => false end.
Definition in_while (f : frame) : bool :=
  match f with FWhileC _ | FWhileB _ => true | _ => false end.
Definition in_for (f : frame) : bool :=
  match f with FForS _ _ | FForB _ _ => true | _ => false end.
(** The name of the function of the closest call around the node. *)
Fixpoint closest_call (e : expr) (fs : list frame) : option text :=
  match fs with
  | [] => None
  | FCallF _ :: _ => Some (get_function_name e)
  | FCallA f _ _ _ :: _ => Some (get_function_name f)
  | f :: fs' => closest_call (fill f e) fs'
  end.
Definition implicit_assignment (skipped : list text) (fs : list frame) (e : expr) : option report :=
  match e with
  | EBin o _ _ _ =>
      if negb (arrow_op o) then None
      else
        let arg := before_braces is_argument fs in
        if arg && match closest_call e fs with Some n => mem n skipped | None => false end then None
        else
          let direct (k : frame -> bool) := match fs with f :: _ => k f | [] => false end in
          let cond :=
            negb (direct (fun f => match f with FIfT _ _ | FIfE _ _ => true | _ => false end)) &&
            before_braces in_if fs in
          let whl :=
            negb (direct (fun f => match f with FWhileB _ => true | _ => false end)) &&
            before_braces in_while fs in
          let fr :=
            negb (direct (fun f => match f with FForB _ _ => true | _ => false end)) &&
            before_braces in_for fs in
          if negb cond && negb whl && negb arg && negb fr then None
          else reported fs e
  | _ => None
  end.

(** ** Conditions *)

(** lints/base/unnecessary_nesting/unnecessary_nesting.rs:35-100 *)
Definition in_parens (c : expr) : list tok :=
  match c with EAtom (AId _) => toks c | _ => TLp :: toks c ++ [TRp] end.
Definition unnecessary_nesting (fs : list frame) (e : expr) : option report :=
  match e with
  | EIf c1 (EBraces [EIf c2 t None]) None =>
      fixed_as fs e (TIf :: TLp :: (in_parens c1 ++ TOp BAnd2 :: in_parens c2) ++ TRp :: toks t)
  | _ => None
  end.

(** Numeric literals.  A literal that ends with [L] is an integer, with [i] a
    complex number; the others are doubles. *)
Definition last_char (t : text) : option char := nth_error (rev t) 0.
Definition is_integer_lit (t : text) : bool :=
  match last_char t with Some c => ceqb c 76%N | None => false end.
Definition is_complex_lit (t : text) : bool :=
  match last_char t with Some c => ceqb c 105%N | None => false end.
Definition is_digit (c : char) : bool := (48 <=? c)%N && (c <=? 57)%N.
Definition number (t : text) : N :=
  fold_left (fun a c => (10 * a + (c - 48))%N) t 0%N.
(** Rust's [parse::<i64>] on the text before the [L] (a sign cannot occur). *)
Definition parse_i64 (t : text) : option N :=
  match t with
  | [] => None
  | _ => if forallb is_digit t && (number t <? 9223372036854775808)%N then Some (number t) else None
  end.
(** Rust's [parse::<f64>] followed by a comparison with zero: digits, an
    optional fraction and an optional exponent; the number is zero when its
    digits are.  Simplification: a literal so small that it rounds to zero
    counts as nonzero. *)
Fixpoint take_digits (t : text) : text * text :=
  match t with
  | c :: t' => if is_digit c then let (a, b) := take_digits t' in (c :: a, b) else ([], t)
  | [] => ([], [])
  end.
Definition parse_exponent (t : text) : bool :=
  match t with
  | [] => true
  | c :: t' =>
      (ceqb c 101%N || ceqb c 69%N) &&
      let u := match t' with
               | s :: t'' => if ceqb s 43%N || ceqb s 45%N then t'' else t'
               | [] => t'
               end in
      match u with [] => false | _ => forallb is_digit u end
  end.
Definition some_nonzero (t : text) : bool := existsb (fun c => negb (ceqb c 48%N)) t.
Definition parse_f64_nonzero (t : text) : option bool :=
  let (a, r) := take_digits t in
  let '(b, r') := match r with
                  | c :: u => if ceqb c 46%N then take_digits u else ([], r)
                  | [] => ([], [])
                  end in
  match a ++ b with
  | [] => None
  | ds => if parse_exponent r' then Some (some_nonzero ds) else None
  end.

(** lints/base/if_always_true/if_always_true.rs:74-172 *)
Definition number_constant (t : text) : res (option bool) :=
  if is_integer_lit t then
    match parse_i64 (removelast t) with
    | Some n => ROk (Some (negb (n =? 0)%N))
    | None => RErr
    end
  else if is_complex_lit t then ROk None
  else
    match parse_f64_nonzero (if starts_with (lit ".") t then lit "0" ++ t else t) with
    | Some b => ROk (Some b)
    | None => RErr
    end.
Definition or_constant (l r : option bool) : option bool :=
  match l, r with
  | Some true, _ | _, Some true => Some true
  | Some false, _ => r
  | _, _ => None
  end.
Definition and_constant (l r : option bool) : option bool :=
  match l, r with
  | Some false, _ | _, Some false => Some false
  | Some true, _ => r
  | _, _ => None
  end.
Fixpoint evaluate_constant_condition (e : expr) : res (option bool) :=
  match e with
  | EAtom ATrue => ROk (Some true)
  | EAtom AFalse => ROk (Some false)
  | EAtom (AOther t) => if teqb t (lit "Inf") then ROk (Some true) else ROk None
  | EAtom (ANum t) => number_constant t
  | EParen e => evaluate_constant_condition e
  | EUn UNot e => rbind (evaluate_constant_condition e) (fun o => ROk (option_map negb o))
  | EUn (UNeg | UPos) e => evaluate_constant_condition e
  | EBin (BOr | BOr2) _ l r =>
      rbind (evaluate_constant_condition l) (fun a =>
        rbind (evaluate_constant_condition r) (fun b => ROk (or_constant a b)))
  | EBin (BAnd | BAnd2) _ l r =>
      rbind (evaluate_constant_condition l) (fun a =>
        rbind (evaluate_constant_condition r) (fun b => ROk (and_constant a b)))
  | _ => ROk None
  end.
(** lints/base/if_always_true/if_always_true.rs:54-72.  The range reported is
    that of the condition. *)
Definition if_always_true (fs : list frame) (e : expr) : res (option report) :=
  match e with
  | EIf c _ None =>
      rbind (evaluate_constant_condition c) (fun o =>
        ROk (match o with Some true => reported fs e | _ => None end))
  | _ => ROk None
  end.

(** lints/base/vector_logic/vector_logic.rs:45-107 *)
Definition is_bitwise_exception (e : expr) : bool :=
  match e with
  | ECall f _ => mem (get_function_name f) [lit "as.raw"; lit "as.octmode"; lit "as.hexmode"]
  | EAtom (AStr _) => true
  | _ => false
  end.
Definition vector_logic (fs : list frame) (e : expr) : option report :=
  match e with
  | EBin (BAnd | BOr) _ l r =>
      if is_bitwise_exception l || is_bitwise_exception r then None
      else if parent_is_condition fs then reported fs e
      else None
  | _ => None
  end.

(** lints/base/is_numeric/is_numeric.rs:45-97 *)
Definition is_call_to (n : text) (f : expr) : bool :=
  match f with EAtom (AId m) => teqb m n | _ => false end.
Definition is_numeric (fs : list frame) (e : expr) : option report :=
  match e with
  | EBin BOr2 _ (ECall f fargs) (ECall g gargs) =>
      if (is_call_to (lit "is.integer") f && is_call_to (lit "is.numeric") g) ||
         (is_call_to (lit "is.numeric") f && is_call_to (lit "is.integer") g) then
        if same_text (args_toks fargs) (args_toks gargs)
        then fixed_as fs e (call_text (lit "is.numeric") (args_toks fargs))
        else None
      else None
  | _ => None
  end.

(** lints/base/equals_nan/equals_nan.rs:47-120 *)
Definition is_nan_lit (e : expr) : bool :=
  match e with EAtom (AOther t) => teqb t (lit "NaN") | _ => false end.
Definition equals_nan (fs : list frame) (e : expr) : option report :=
  match e with
  | EBin o _ l r =>
      match equality o with
      | Some b =>
          if is_in o && is_nan_lit l then None
          else if Bool.eqb (is_nan_lit l) (is_nan_lit r) then None
          else fixed_as fs e
                 (maybe_not b (call_text (lit "is.nan") (toks (if is_nan_lit l then r else l))))
      | None => None
      end
  | _ => None
  end.

(** lints/base/string_boundary/string_boundary.rs:130-219 *)
Definition is_literal_one (e : expr) : bool :=
  match e with
  | EAtom (ANum t) => mem t [lit "1"; lit "1L"; lit "1.0"; lit "1."]
  | _ => false
  end.
Definition is_nchar_of (end_arg x : expr) : bool :=
  match end_arg with
  | ECall f [(_, Some v)] =>
      teqb (get_function_name f) (lit "nchar") && same_text (toks v) (toks x)
  | _ => false
  end.
(** lints/base/string_boundary/string_boundary.rs:33-128 *)
Definition string_boundary (fs : list frame) (e : expr) : option report :=
  match e with
  | EBin (BCmp c) _ l r =>
      match c with
      | CEq | CNe =>
          let b := match c with CEq => true | _ => false end in
          let look f args other :=
            if mem (get_function_name f) [lit "substr"; lit "substring"] then
              match args with
              | (_, Some x) :: (_, Some start) :: (_, Some stop) :: _ =>
                  if is_literal_one start then
                    fixed_as fs e (maybe_not b (call_text (lit "startsWith") (toks x ++ TComma :: toks other)))
                  else if is_nchar_of stop x then
                    fixed_as fs e (maybe_not b (call_text (lit "endsWith") (toks x ++ TComma :: toks other)))
                  else None
              | _ => None
              end
            else None in
          match l, r with
          | ECall f args, _ => look f args r
          | _, ECall f args => look f args l
          | _, _ => None
          end
      | _ => None
      end
  | _ => None
  end.

(** ** Calls *)

(** lints/base/matrix_apply/matrix_apply.rs:56-154 *)
Definition lit_in (l : list text) (e : expr) : bool :=
  match e with EAtom (ANum t) => mem t l | _ => false end.
Definition is_id (n : text) (e : expr) : bool :=
  match e with EAtom (AId m) => teqb m n | _ => false end.
Definition matrix_apply (fs : list frame) (e : expr) : option report :=
  match e with
  | ECall f args =>
      if teqb (get_function_name f) (lit "apply") then
        let na_rm := get_arg_by_name args (lit "na.rm") in
        if (match na_rm with Some _ => 4 | None => 3 end) <? length args then None
        else
          match get_arg_by_name_then_position args (lit "X") 1,
                get_arg_by_name_then_position args (lit "FUN") 3,
                get_arg_by_name_then_position args (lit "MARGIN") 2 with
          | Some (_, Some x), Some (_, Some g), Some (_, Some m) =>
              let more := match na_rm with Some a => TComma :: arg_toks a | None => [] end in
              let row := lit_in [lit "1"; lit "1L"] m in
              let col := lit_in [lit "2"; lit "2L"] m in
              if is_id (lit "mean") g then
                if row then fixed_as fs e (call_text (lit "rowMeans") (toks x ++ more))
                else if col then fixed_as fs e (call_text (lit "colMeans") (toks x ++ more))
                else None
              else if is_id (lit "sum") g then
                if row then fixed_as fs e (call_text (lit "rowSums") (toks x ++ more))
                else if col then fixed_as fs e (call_text (lit "colSums") (toks x ++ more))
                else None
              else None
          | _, _, _ => None
          end
      else None
  | _ => None
  end.

(** lints/base/list2df/list2df.rs:53-96 *)
Definition is_cbind_df (e : expr) : bool :=
  match e with
  | EAtom (AId t) => teqb t (lit "cbind.data.frame")
  | EAtom (AStr t) => teqb t (lit """cbind.data.frame""") || teqb t (lit "'cbind.data.frame'")
  | _ => false
  end.
Definition list2df (fs : list frame) (e : expr) : option report :=
  match e with
  | ECall f args =>
      if teqb (get_function_name f) (lit "do.call") then
        match get_arg_by_name_then_position args (lit "what") 1,
              get_arg_by_name_then_position args (lit "args") 2 with
        | Some (_, Some what), Some (_, Some l) =>
            match get_arg_by_position args 3 with
            | Some _ => None
            | None =>
                if is_cbind_df what then fixed_as fs e (call_text (lit "list2DF") (toks l)) else None
            end
        | _, _ => None
        end
      else None
  | _ => None
  end.

(** lints/base/download_file/download_file.rs:32-105 *)
Definition str_in (l : list text) (e : expr) : bool :=
  match e with EAtom (AStr t) => mem t l | _ => false end.
Definition quoted (n : text) : list text := [[34%N] ++ n ++ [34%N]; [39%N] ++ n ++ [39%N]].
Definition arg_value (a : option arg) : option expr :=
  match a with Some (_, v) => v | None => None end.
Definition download_file (fs : list frame) (e : expr) : option report :=
  match e with
  | ECall f args =>
      if teqb (get_function_name f) (lit "download.file") then
        let method := arg_value (get_arg_by_name_then_position args (lit "method") 3) in
        let mode := arg_value (get_arg_by_name_then_position args (lit "mode") 5) in
        if match method with
           | Some m => str_in (quoted (lit "wget") ++ quoted (lit "curl")) m
           | None => false
           end then None
        else
          match mode with
          | None => reported fs e
          | Some m =>
              if str_in (quoted (lit "w") ++ quoted (lit "a")) m then reported fs e else None
          end
      else None
  | _ => None
  end.

(** lints/base/browser/browser.rs:47-59 *)
Definition browser (fs : list frame) (e : expr) : option report :=
  match e with
  | ECall f _ => if teqb (get_function_name f) (lit "browser") then reported fs e else None
  | _ => None
  end.
(** lints/base/undesirable_function/undesirable_function.rs:53-70 *)
Definition undesirable_function (names : list text) (fs : list frame) (e : expr) : option report :=
  match e with
  | ECall f _ => if mem (get_function_name f) names then reported fs e else None
  | _ => None
  end.
(** lints/base/internal_function/internal_function.rs:17-36 *)
Definition internal_function (fs : list frame) (e : expr) : option report :=
  match e with
  | EAtom (ANs _ true _) => reported fs e
  | _ => None
  end.

(** The source text of a token; spaces are left out. *)
Definition spell_atom (a : atom) : text :=
  match a with
  | AId x => x
  | ANum t | AStr t | ANa t | AOther t => t
  | ATrue => lit "TRUE" | AFalse => lit "FALSE" | ANull => lit "NULL"
  | ANs p i n => p ++ (if i then lit ":::" else lit "::") ++ n
  end.
Definition spell_op (o : binop) : text :=
  match o with
  | BEq => lit "=" | BAssign t | BRAssign t | BSpecial t => t
  | BTilde => lit "~" | BOr => lit "|" | BOr2 => lit "||" | BAnd => lit "&" | BAnd2 => lit "&&"
  | BCmp CLt => lit "<" | BCmp CLe => lit "<=" | BCmp CGt => lit ">" | BCmp CGe => lit ">="
  | BCmp CEq => lit "==" | BCmp CNe => lit "!="
  | BAdd => lit "+" | BSub => lit "-" | BMul => lit "*" | BDiv => lit "/"
  | BPipe => lit "|>" | BColon => lit ":" | BPow => lit "^"
  end.
Definition spell (t : tok) : text :=
  match t with
  | TAtom a => spell_atom a
  | TBang => lit "!"
  | TOp o => spell_op o
  | TLp => lit "(" | TRp => lit ")"
  | TLb d => if d then lit "[[" else lit "["
  | TRb d => if d then lit "]]" else lit "]"
  | TLc => lit "{" | TRc => lit "}"
  | TComma => lit "," | TNl => [10%N]
  | TExtract op n => op ++ n
  | TIf => lit "if" | TElse => lit "else" | TFun => lit "function" | TFor => lit "for" | TIn => lit "in"
  | TWhile => lit "while" | TRepeat => lit "repeat"
  end.
Definition spelling (ts : list tok) : text := concat (map spell ts).

(** lints/base/duplicated_arguments/duplicated_arguments.rs:31-58 *)
Definition callee_text (f : expr) : res text :=
  match f with
  | EAtom (ANs _ _ n) => ROk n
  | EBraces es => ROk (concat (map (fun x => spelling (toks x)) es))
  | EExtract _ _ n => ROk n
  | ECall g _ => ROk (spelling (toks g))
  | ESub d _ args => ROk (spelling (TLb d :: args_toks args ++ [TRb d]))
  | EAtom (AId x) => ROk x
  | EAtom (ANum t) | EAtom (AStr t) => ROk t
  | EParen e => ROk (spelling (toks e))
  | EAtom (AOther t) => if teqb t (lit "return") then ROk t else RErr
  | _ => RErr
  end.
(** lints/base/duplicated_arguments/duplicated_arguments.rs:67-88 *)
Definition is_quote (c : char) : bool := ceqb c 39%N || ceqb c 34%N || ceqb c 96%N.
Definition bare_name (n : text) : text :=
  match filter (fun c => negb (is_quote c)) n with [] => n | m => m end.
Definition given_names (args : list arg) : list text :=
  flat_map (fun a : arg => match fst a with Some n => [bare_name n] | None => [] end) args.
Fixpoint has_duplicate (l : list text) : bool :=
  match l with
  | [] => false
  | x :: l' => mem x l' || has_duplicate l'
  end.
(** lints/base/duplicated_arguments/duplicated_arguments.rs:28-135 *)
Definition duplicated_arguments (skipped : list text) (fs : list frame) (e : expr) : res (option report) :=
  match e with
  | ECall f args =>
      rbind (callee_text f) (fun n =>
        if mem n skipped || starts_with (lit "cli_") n then ROk None
        else ROk (if has_duplicate (given_names args) then reported fs e else None))
  | _ => ROk None
  end.

(** lints/base/fixed_regex/fixed_regex.rs:51-147 *)
Definition regex_chars : text := lit ".*+?[{()|^$\".
Fixpoint drop_quotes (t : text) : text :=
  match t with
  | c :: t' => if ceqb c 34%N || ceqb c 39%N then drop_quotes t' else t
  | [] => []
  end.
Definition trim_quotes (t : text) : text := rev (drop_quotes (rev (drop_quotes t))).
Definition is_fixed_pattern (t : text) : bool :=
  forallb (fun c => negb (existsb (ceqb c) regex_chars)) t.
Definition fixed_position (n : text) : option nat :=
  if mem n [lit "grep"; lit "gsub"; lit "sub"] then Some 6
  else if mem n [lit "regexpr"; lit "gregexpr"; lit "regexec"; lit "grepl"] then Some 5
  else None.
Definition ignore_case_position (n : text) : nat :=
  if mem n [lit "gsub"; lit "sub"] then 4 else 3.
Definition is_true (e : option expr) : bool :=
  match e with Some (EAtom ATrue) => true | _ => false end.
Definition is_false (e : option expr) : bool :=
  match e with Some (EAtom AFalse) => true | _ => false end.
Definition fixed_regex (fs : list frame) (e : expr) : option report :=
  match e with
  | ECall f args =>
      let n := get_function_name f in
      match fixed_position n with
      | None => None
      | Some pos =>
          let fixed := arg_value (get_arg_by_name_then_position args (lit "fixed") pos) in
          if is_true fixed then None
          else if is_true (arg_value (get_arg_by_name_then_position args (lit "ignore.case") (ignore_case_position n)))
          then None
          else
            match arg_value (get_arg_by_name_then_position args (lit "pattern") 1) with
            | Some (EAtom (AStr t)) =>
                if is_fixed_pattern (trim_quotes t) then
                  let out (l : list arg) :=
                    fixed_as fs e (call_text n
                      (args_toks l ++ TComma :: [id_tok (lit "fixed"); TEq; TAtom ATrue])) in
                  if is_false fixed then
                    match drop_arg_by_name_or_position args (lit "fixed") pos with
                    | Some l => out l
                    | None => None
                    end
                  else out args
                else None
            | _ => None
            end
      end
  | _ => None
  end.

(** ** sprintf() *)

(** lints/base/sprintf/sprintf.rs:151-170: what the scan of a format collects.
    [n_specs], the arguments each specifier takes, whether some [%] is invalid,
    whether some specifier has a position, the largest position, and the text
    outside specifiers. *)
Record format := mk_format {
  specs : list nat;
  invalid : bool;
  positional : bool;
  max_position : N;
  constant : text
}.
Definition type_chars : text := lit "dioxXfeEgGaAs".
Fixpoint skip_while (k : char -> bool) (t : text) : text :=
  match t with c :: t' => if k c then skip_while k t' else t | [] => [] end.
Definition is_flag (c : char) : bool :=
  ceqb c 45%N || ceqb c 43%N || ceqb c 32%N || ceqb c 35%N || ceqb c 48%N.
(** Width, or precision without its point: a star takes an argument. *)
Definition star_or_digits (t : text) : nat * text :=
  match t with
  | c :: t' => if ceqb c 42%N then (1, t') else (0, skip_while is_digit t)
  | [] => (0, [])
  end.
(** lints/base/sprintf/sprintf.rs:183-288.  [n] bounds the number of steps; each
    reads at least one character. *)
Definition position_limit : N := 18446744073709551616%N.
Fixpoint scan_format (n : nat) (t : text) (acc : format) : format :=
  match n with
  | 0 => acc
  | S n =>
      match t with
      | [] => acc
      | c :: t =>
          if negb (ceqb c 37%N) then
            scan_format n t (mk_format (specs acc) (invalid acc) (positional acc) (max_position acc) (constant acc ++ [c]))
          else
            let bad u := scan_format n u (mk_format (specs acc) true (positional acc) (max_position acc) (constant acc)) in
            match skip_while is_ws t with
            | [] => bad []
            | c :: t1 =>
                if ceqb c 37%N then
                  scan_format n t1 (mk_format (specs acc) (invalid acc) (positional acc) (max_position acc) (constant acc ++ [37%N]))
                else
                  let t := c :: t1 in
                  let (ds, u) := take_digits t in
                  let '(acc, t) :=
                    match u with
                    | d :: u' =>
                        if ceqb d 36%N then
                          match ds with
                          | [] => (acc, u)
                          | _ =>
                              if (number ds <? position_limit)%N then
                                (mk_format (specs acc) (invalid acc) true (N.max (max_position acc) (number ds)) (constant acc), u')
                              else (acc, u)
                          end
                        else (acc, t)
                    | [] => (acc, t)
                    end in
                  let t := skip_while is_flag t in
                  let (w, t) := star_or_digits t in
                  let (p, t) := match t with
                                | c :: t' => if ceqb c 46%N then star_or_digits t' else (0, t)
                                | [] => (0, [])
                                end in
                  match t with
                  | c :: t' =>
                      if existsb (ceqb c) type_chars then
                        scan_format n t' (mk_format (specs acc ++ [1 + w + p]) (invalid acc) (positional acc) (max_position acc) (constant acc))
                      else scan_format n t (mk_format (specs acc) true (positional acc) (max_position acc) (constant acc))
                  | [] => scan_format n [] (mk_format (specs acc) true (positional acc) (max_position acc) (constant acc))
                  end
            end
      end
  end.
Definition parse_sprintf_format (t : text) : format :=
  scan_format (length t) t (mk_format [] false false 0 []).
(** lints/base/sprintf/sprintf.rs:52-143.  The fix is a piece of source text: a
    string literal. *)
Definition sprintf_rule (fs : list frame) (e : expr) : option report :=
  match e with
  | ECall f args =>
      if negb (teqb (get_function_name f) (lit "sprintf")) then None
      else if has_previous_pipe fs then None
      else
        match get_arg_by_name_then_position args (lit "fmt") 1 with
        | Some (nm, Some (EAtom (AStr t))) =>
            let k := parse_sprintf_format t in
            if invalid k then reported fs e
            else
              match specs k with
              | [] => fixed_as fs e [TAtom (AStr (constant k))]
              | _ =>
                  let dots := length (get_unnamed_args args) in
                  let given := match nm with Some _ => dots | None => dots - 1 end in
                  let expected := if positional k then max_position k else N.of_nat (list_sum (specs k)) in
                  if (expected =? N.of_nat given)%N then None else reported fs e
              end
        | _ => None
        end
  | _ => None
  end.

(** ** Loops and literals *)

(** lints/base/for_loop_index/for_loop_index.rs:62-96 *)
Fixpoint contains_identifier (x : text) (e : expr) : bool :=
  match e with
  | EAtom (AId y) => teqb y x
  | ECall _ args =>
      existsb (fun a : arg => match fst a with Some n => teqb n x | None => false end) args ||
      existsb (fun a : arg => match snd a with Some v => contains_identifier x v | None => false end) args
  | _ => false
  end.
(** lints/base/for_loop_index/for_loop_index.rs:42-60.  The range reported goes
    from the variable to the sequence. *)
Definition for_loop_index (fs : list frame) (e : expr) : option report :=
  match e with
  | EFor v s _ => if contains_identifier v s then reported fs e else None
  | _ => None
  end.
(** lints/base/for_loop_dup_index/for_loop_dup_index.rs:48-73 *)
Definition is_for_over (v : text) (f : frame) : bool :=
  match f with FForS w _ | FForB w _ => teqb w v | _ => false end.
Definition for_loop_dup_index (fs : list frame) (e : expr) : option report :=
  match e with
  | EFor v _ _ => if existsb (is_for_over v) fs then reported fs e else None
  | _ => None
  end.
(** lints/base/numeric_leading_zero/numeric_leading_zero.rs:36-65 *)
Definition numeric_leading_zero (fs : list frame) (e : expr) : option report :=
  match e with
  | EAtom (ANum t) =>
      if negb (is_integer_lit t) && starts_with (lit ".") t
      then fixed_as fs e [TAtom (ANum (lit "0" ++ t))] else None
  | _ => None
  end.

(** ** testthat *)

(** utils.rs:277-287: the fix keeps the package of the function; [:::] becomes
    [::]. *)
Definition same_package (f : expr) (n : text) : tok :=
  match f with
  | EAtom (ANs p _ _) => TAtom (ANs p false n)
  | _ => id_tok n
  end.
Definition expect_text (f : expr) (n : text) (content : list tok) : list tok :=
  same_package f n :: TLp :: content ++ [TRp].
Definition is_call_named (n : text) (e : expr) : bool :=
  match e with ECall f _ => teqb (get_function_name f) n | _ => false end.
(** The value of the argument [x] of a call. *)
Definition x_of (e : expr) : option expr :=
  match e with
  | ECall _ args => arg_value (get_arg_by_name_then_position args (lit "x") 1)
  | _ => None
  end.
Definition is_expect_equal (f : expr) : bool :=
  mem (get_function_name f) [lit "expect_equal"; lit "expect_identical"].
Definition object_expected (args : list arg) : option (expr * expr) :=
  match get_arg_by_name_then_position args (lit "object") 1,
        get_arg_by_name_then_position args (lit "expected") 2 with
  | Some (_, Some a), Some (_, Some b) => Some (a, b)
  | _, _ => None
  end.

(** lints/testthat/expect_length/expect_length.rs:36-145 *)
Definition expect_length (fs : list frame) (e : expr) : option report :=
  match e with
  | ECall f args =>
      if is_expect_equal f then
        match object_expected args with
        | Some (a, b) =>
            if 2 <? length args then None
            else
              let out (c other : expr) :=
                if is_call_named (lit "length") other then None
                else
                  match x_of c with
                  | Some x => fixed_as fs e (expect_text f (lit "expect_length") (toks x ++ TComma :: toks other))
                  | None => None
                  end in
              if is_call_named (lit "length") a then out a b
              else if is_call_named (lit "length") b then out b a
              else None
        | None => None
        end
      else None
  | _ => None
  end.

(** lints/testthat/expect_named/expect_named.rs:34-109 *)
Definition expect_named (fs : list frame) (e : expr) : option report :=
  match e with
  | ECall f args =>
      if is_expect_equal f then
        match object_expected args with
        | Some (a, b) =>
            if is_call_named (lit "names") a then
              if is_call_named (lit "names") b then None
              else
                match x_of a with
                | Some x => fixed_as fs e (expect_text f (lit "expect_named") (toks x ++ TComma :: toks b))
                | None => None
                end
            else None
        | None => None
        end
      else None
  | _ => None
  end.

(** lints/testthat/expect_not/expect_not.rs:41-125 *)
Definition expect_not (fs : list frame) (e : expr) : option report :=
  match e with
  | ECall f args =>
      let n := get_function_name f in
      if mem n [lit "expect_true"; lit "expect_false"] then
        match get_arg_by_name_then_position args (lit "object") 1 with
        | Some (_, v) =>
            if 1 <? length args then None
            else
              match v with
              | Some (EUn UNot (EUn UNot _)) => None
              | Some (EUn UNot x) =>
                  fixed_as fs e (expect_text f
                    (if teqb n (lit "expect_true") then lit "expect_false" else lit "expect_true")
                    (match x with EParen y => toks y | _ => toks x end))
              | _ => None
              end
        | None => None
        end
      else None
  | _ => None
  end.

(** lints/testthat/expect_null/expect_null.rs:37-141 *)
Definition expect_null (fs : list frame) (e : expr) : option report :=
  match e with
  | ECall f args =>
      if is_expect_equal f then
        match object_expected args with
        | Some (a, EAtom ANull) => fixed_as fs e (expect_text f (lit "expect_null") (toks a))
        | Some (EAtom ANull, b) => fixed_as fs e (expect_text f (lit "expect_null") (toks b))
        | _ => None
        end
      else if teqb (get_function_name f) (lit "expect_true") then
        match arg_value (get_arg_by_name_then_position args (lit "object") 1) with
        | Some c =>
            if is_call_named (lit "is.null") c then
              match x_of c with
              | Some x => fixed_as fs e (expect_text f (lit "expect_null") (toks x))
              | None => None
              end
            else None
        | None => None
        end
      else None
  | _ => None
  end.

(** lints/testthat/expect_s3_class/expect_s3_class.rs:145-195 *)
Definition ignored_classes : list text :=
  [lit "NULL"; lit "symbol"; lit "pairlist"; lit "closure"; lit "environment"; lit "promise"; lit "language";
   lit "special"; lit "builtin"; lit "char"; lit "logical"; lit "integer"; lit "double"; lit "complex";
   lit "character"; lit "..."; lit "any"; lit "expression"; lit "list"; lit "externalptr"; lit "bytecode";
   lit "weakref"; lit "raw"; lit "S4"; lit "object"; lit "numeric"; lit "name"; lit "list"; lit "matrix";
   lit "array"; lit "function"].
Definition is_s3_class (e : expr) : bool :=
  match e with
  | EAtom (AStr t) =>
      negb (mem (filter (fun c => negb (ceqb c 34%N || ceqb c 39%N)) t) ignored_classes)
  | _ => false
  end.
Definition is_call (e : expr) : bool := match e with ECall _ _ => true | _ => false end.
(** lints/testthat/expect_s3_class/expect_s3_class.rs:58-143 *)
Definition expect_s3_class (fs : list frame) (e : expr) : option report :=
  match e with
  | ECall f args =>
      if is_expect_equal f then
        match object_expected args with
        | Some (a, b) =>
            if 2 <? length args then None
            else
              let out (c other : expr) :=
                if is_call_named (lit "class") c && is_s3_class other then
                  match x_of c with
                  | Some x => fixed_as fs e (expect_text f (lit "expect_s3_class") (toks x ++ TComma :: toks other))
                  | None => None
                  end
                else None in
              if is_call a then out a b else if is_call b then out b a else None
        | None => None
        end
      else None
  | _ => None
  end.

(** lints/testthat/expect_true_false/expect_true_false.rs:35-113 *)
Definition expect_true_false (fs : list frame) (e : expr) : option report :=
  match e with
  | ECall f args =>
      if is_expect_equal f then
        let out (b : bool) (x : expr) :=
          fixed_as fs e (expect_text f (if b then lit "expect_true" else lit "expect_false") (toks x)) in
        match object_expected args with
        | Some (EAtom ATrue, b) => out true b
        | Some (EAtom AFalse, b) => out false b
        | Some (a, EAtom ATrue) => out true a
        | Some (a, EAtom AFalse) => out false a
        | _ => None
        end
      else None
  | _ => None
  end.

(** lints/testthat/expect_type/expect_type.rs:37-188 *)
Definition type_functions : list (text * text) :=
  [(lit "is.logical", lit """logical"""); (lit "is.integer", lit """integer""");
   (lit "is.double", lit """double"""); (lit "is.complex", lit """complex""");
   (lit "is.character", lit """character"""); (lit "is.raw", lit """raw""");
   (lit "is.list", lit """list"""); (lit "is.null", lit """NULL""");
   (lit "is.symbol", lit """symbol"""); (lit "is.expression", lit """expression""");
   (lit "is.language", lit """language"""); (lit "is.environment", lit """environment""");
   (lit "is.pairlist", lit """pairlist""")].
Definition type_tested (n : text) : option text :=
  option_map snd (find (fun p => teqb (fst p) n) type_functions).
Definition expect_type (fs : list frame) (e : expr) : option report :=
  match e with
  | ECall f args =>
      let out (x : expr) (t : list tok) :=
        fixed_as fs e (expect_text f (lit "expect_type") (toks x ++ TComma :: t)) in
      if is_expect_equal f then
        if 2 <? length args then None
        else
          match object_expected args with
          | Some (a, b) =>
              if is_call_named (lit "typeof") a then
                match x_of a with Some x => out x (toks b) | None => None end
              else if is_call_named (lit "typeof") b then
                match x_of b with Some x => out x (toks a) | None => None end
              else None
          | None => None
          end
      else if teqb (get_function_name f) (lit "expect_true") then
        if 1 <? length args then None
        else
          match arg_value (get_arg_by_name_then_position args (lit "object") 1) with
          | Some (ECall g gargs) =>
              match type_tested (get_function_name g),
                    arg_value (get_arg_by_name_then_position gargs (lit "x") 1) with
              | Some t, Some x => out x [TAtom (AStr t)]
              | _, _ => None
              end
          | _ => None
          end
      else None
  | _ => None
  end.

(** The place, in a list of arguments, of the one that
    get_arg_by_name_then_position finds (utils.rs:158-167): expect_match tells
    arguments apart by their range in the file. *)
Fixpoint index_of (k : arg -> bool) (i : nat) (args : list arg) : option nat :=
  match args with
  | [] => None
  | a :: l => if k a then Some i else index_of k (S i) l
  end.
Fixpoint index_unnamed (pos i : nat) (args : list arg) : option nat :=
  match args with
  | [] => None
  | a :: l =>
      if is_unnamed a then match pos with 0 => Some i | S p => index_unnamed p (S i) l end
      else index_unnamed pos (S i) l
  end.
Definition arg_index (args : list arg) (n : text) (pos : nat) : option nat :=
  match index_of (has_name n) 0 args with
  | Some i => Some i
  | None => index_unnamed (pos - 1) 0 args
  end.
Fixpoint drop_indices (i j k : nat) (args : list arg) : list arg :=
  match args with
  | [] => []
  | a :: l => (if (k =? i) || (k =? j) then [] else [a]) ++ drop_indices i j (S k) l
  end.
(** lints/testthat/expect_match/expect_match.rs:53-162 and
    lints/testthat/expect_no_match/expect_no_match.rs:53-163, with the function
    looked for and the one put in its place. *)
Definition expect_grepl (outer new : text) (fs : list frame) (e : expr) : option report :=
  match e with
  | ECall f args =>
      if negb (teqb (get_function_name f) outer) then None
      else
        match get_nested_functions_content fs e outer (lit "grepl") with
        | Some (_, (fs', EBin o nl l r)) =>
            match fs' with
            | FUn UNot :: _ => None
            | _ => reported fs' (EBin o nl l r)
            end
        | _ =>
            match arg_value (get_arg_by_name_then_position args (lit "object") 1) with
            | Some (ECall g gargs) =>
                if teqb (get_function_name g) (lit "grepl") then
                  match arg_index gargs (lit "pattern") 1, arg_index gargs (lit "x") 2 with
                  | Some i, Some j =>
                      match arg_value (nth_error gargs j), arg_value (nth_error gargs i) with
                      | Some x, Some pat =>
                          let rest := drop_indices i j 0 gargs in
                          if 1 <? length args then reported fs e
                          else if existsb is_unnamed rest then reported fs e
                          else fixed_as fs e (expect_text f new
                                 (sep [TComma] (toks x :: toks pat :: map arg_toks rest)))
                      | _, _ => None
                      end
                  | _, _ => None
                  end
                else None
            | _ => None
            end
        end
  | _ => None
  end.
Definition expect_match := expect_grepl (lit "expect_true") (lit "expect_match").
Definition expect_no_match := expect_grepl (lit "expect_false") (lit "expect_no_match").
