(** What it means that the message of a diagnostic is right (C104).

    A message quotes R code between backquotes: the body quotes the form of the
    code that is reported (`any(!x)` may be hard to read), the suggestion the
    form to use (Use `!all(x)` instead).  In such a quotation some names stand for
    any code: the form is read with R's own lexer and grammar (Spec/RLex.v,
    Spec/RGrammar.v), and the names are then replaced.  A name that stands for
    code is x, y, n, m, t, pattern, condition or a string 'a', 'y'; the dots
    stand for any arguments. *)
From Coq Require Export Sorting.Permutation.
From Verif Require Export Spec.RLex.

(** What stands between backquotes: the pieces of odd number. *)
Fixpoint between (inside : bool) (acc t : text) : list text :=
  match t with
  | [] => []
  | c :: t' =>
      if ceqb c 96%N then (if inside then rev acc :: between false [] t' else between true [] t')
      else between inside (if inside then c :: acc else acc) t'
  end.
Definition quotations (t : text) : list text := between false [] t.

(** The R code of a quotation: a single expression. *)
Definition code (q : text) : option expr :=
  match tokens q with
  | Some ts => match parse (map fst ts) with Some [e] => Some e | _ => None end
  | None => None
  end.

Definition stands_for_code (x : text) : bool :=
  existsb (teqb x) [lit "x"; lit "y"; lit "n"; lit "m"; lit "t"; lit "pattern"; lit "condition"; lit "'a'"; lit "'y'"].

(** The code that the names and the dots stand for. *)
Record reading := mk_reading { stands : text -> expr; dots : list arg }.

Definition is_dots (k : option text) (v : expr) : bool :=
  match k, v with
  | None, EAtom (AOther n) => teqb n (lit "...")
  | _, _ => false
  end.
Fixpoint read_as (g : reading) (p : expr) : expr :=
  let args (l : list arg) : list arg :=
    flat_map (fun a : arg =>
      match a with
      | (k, Some v) => if is_dots k v then dots g else [(k, Some (read_as g v))]
      | (k, None) => [(k, None)]
      end) l in
  match p with
  | EAtom (AId x) => if stands_for_code x then stands g x else p
  | EAtom (AStr x) => if stands_for_code x then stands g x else p
  | EAtom _ => p
  | EParen e => EParen (read_as g e)
  | EUn u e => EUn u (read_as g e)
  | EBin o nl l r => EBin o nl (read_as g l) (read_as g r)
  | ECall f l => ECall (read_as g f) (args l)
  | ESub d x l => ESub d (read_as g x) (args l)
  | EIf c t el => EIf (read_as g c) (read_as g t) (match el with Some e => Some (read_as g e) | None => None end)
  | _ => p
  end.

(** A call to a function of a package, without the package. *)
Definition unqualified (ts : list tok) : list tok :=
  match ts with
  | TAtom (ANs _ _ n) :: l => TAtom (AId n) :: l
  | _ => ts
  end.

(** A fix is what an advice says: the form quoted first, maybe with a package
    in front of the function. *)
Definition follows_advice (advice : text) (fix_text : list tok) : Prop :=
  exists q more p g, quotations advice = q :: more /\ code q = Some p /\
    (fix_text = toks (read_as g p) \/ unqualified fix_text = toks (read_as g p)).

(** The rules whose fix is always what their suggestion says. *)
Definition advised : list text :=
  [lit "any_is_na"; lit "any_duplicated"; lit "length_levels"; lit "grepv"; lit "system_file";
   lit "comparison_negation"; lit "outer_negation"; lit "coalesce"; lit "seq"; lit "seq2"; lit "list2df";
   lit "redundant_ifelse"; lit "expect_length"; lit "expect_named"; lit "expect_not"; lit "expect_null";
   lit "expect_type"; lit "expect_s3_class"; lit "expect_true_false"; lit "expect_match"; lit "expect_no_match"].

(** The rules whose body shows the code before and whose suggestion shows the
    code after. *)
Definition shown : list text :=
  [lit "any_is_na"; lit "any_duplicated"; lit "length_levels"; lit "which_grepl"; lit "comparison_negation";
   lit "outer_negation"; lit "coalesce"; lit "seq"; lit "seq2"; lit "sort"; lit "matrix_apply";
   lit "class_equals"; lit "list2df"; lit "is_numeric"; lit "expect_length"; lit "expect_named";
   lit "expect_not"; lit "expect_null"; lit "expect_type"; lit "expect_s3_class"; lit "expect_true_false"].

(** No name stands for code in parentheses or braces (some rules drop those). *)
Definition bare (g : reading) : Prop := forall x,
  match stands g x with EParen _ | EBraces _ => False | _ => True end.

(** The code reported is of a form shown in the body, and the fix is the same
    code in the form that the suggestion shows first. *)
Definition rewritten_as_shown (g : reading) (advice : text) (fix_text : list tok) : Prop :=
  exists q more p, quotations advice = q :: more /\ code q = Some p /\ fix_text = toks (read_as g p).

(** A list of names in a message: each in double quotes, with commas. *)
Fixpoint listing (l : list text) : text :=
  match l with
  | [] => []
  | [x] => [34%N] ++ x ++ [34%N]
  | x :: l' => [34%N] ++ x ++ [34%N] ++ lit ", " ++ listing l'
  end.

(** The order in which a set of names comes out: any. *)
Definition some_order (sh : list text -> list text) : Prop := forall l, Permutation (sh l) l.

(** A fix that calls [f], or negates a call of [f]. *)
Definition calls (f : text) (fix_text : list tok) : Prop :=
  exists rest, fix_text = TAtom (AId f) :: TLp :: rest \/ fix_text = TBang :: TAtom (AId f) :: TLp :: rest.
(** The function that the fix calls is one that the advice names. *)
Definition calls_advised (advice : text) (fix_text : list tok) : Prop :=
  exists q f l, In q (quotations advice) /\
  (code q = Some (ECall (EAtom (AId f)) l) \/ code q = Some (EUn UNot (ECall (EAtom (AId f)) l))) /\ calls f fix_text.
(** The rules of which this is claimed. *)
Definition function_advised : list text :=
  [lit "all_equal"; lit "class_equals"; lit "equals_na"; lit "equals_nan"; lit "equals_null"; lit "is_numeric"; lit "lengths";
   lit "matrix_apply"; lit "sample_int"; lit "sort"; lit "string_boundary"; lit "which_grepl"].

(** The closest construct around the code of some kind, with no braces in between. *)
Definition directly_inside (kind : frame -> Prop) (fs : list frame) : Prop :=
  exists inner f outer, fs = inner ++ f :: outer /\ kind f /\
  forall g, In g (inner ++ [f]) -> match g with FBraces _ _ => False | _ => True end.
Definition of_if (f : frame) : Prop := match f with FIfC _ _ | FIfT _ _ | FIfE _ _ => True | _ => False end.
Definition of_while (f : frame) : Prop := match f with FWhileC _ | FWhileB _ => True | _ => False end.
Definition of_for (f : frame) : Prop := match f with FForS _ _ | FForB _ _ => True | _ => False end.
Definition of_call (f : frame) : Prop := match f with FCallA _ _ _ _ | FSubA _ _ _ _ _ => True | _ => False end.
