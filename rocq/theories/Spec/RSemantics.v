(** What R expressions do: enough of R's evaluation to say that two programs
    behave the same.

    An expression is a computation on a state; it may fail.  The functions and
    operators the rules are about have R's own meaning on plain vectors
    (logical, numeric, character and NULL).  Everything else -- variables,
    unknown functions, arithmetic, loops, function definitions, subsetting,
    assignment, other objects -- is left open: an [interp] gives its meaning,
    any meaning, as a function of the computations of the operands.  So an
    unknown function may evaluate its arguments in any order, several times or
    not at all (R's arguments are lazy); it cannot look at their source text
    (no quote() or substitute()).  Theorems hold for every [interp].

    Simplifications: values carry no attributes; the functions named here are
    base R's and are not redefined by the program; warnings are ignored. *)
From Verif Require Export Model.RExpr Spec.RGrammar.

Section Values.
  Variables num other : Type.
  Inductive value :=
  | VLgl (l : list (option bool))       (* None is NA *)
  | VNum (l : list (option num))
  | VStr (l : list (option text))
  | VNull
  | VOther (o : other).
End Values.
Arguments VLgl {num other}. Arguments VNum {num other}. Arguments VStr {num other}.
Arguments VNull {num other}. Arguments VOther {num other}.

(** Equality of computations, and of argument lists. *)
Definition ceq {S V} (c c' : S -> option (V * S)) : Prop := forall s, c s = c' s.
Inductive oceq {S V} : option (S -> option (V * S)) -> option (S -> option (V * S)) -> Prop :=
| oceq_none : oceq None None
| oceq_some : forall c c', ceq c c' -> oceq (Some c) (Some c').
Definition argseq {A S V} (l l' : list (A * option (S -> option (V * S)))) : Prop :=
  Forall2 (fun a a' => fst a = fst a' /\ oceq (snd a) (snd a')) l l'.

(** Numeric literals: [literal t ds] when [t] is one whose digits, before any
    exponent, are [ds]. *)
Definition digit (c : char) : Prop := (48 <= c <= 57)%N.
Inductive exponent : text -> Prop :=
| no_exponent : exponent []
| an_exponent : forall e s ds, e = lit "e" \/ e = lit "E" -> s = [] \/ s = lit "+" \/ s = lit "-" ->
    ds <> [] -> Forall digit ds -> exponent (e ++ s ++ ds).
Inductive literal : text -> text -> Prop :=
| integer_literal : forall a, a <> [] -> Forall digit a -> literal (a ++ lit "L") a
| whole_literal : forall a x, a <> [] -> Forall digit a -> exponent x -> literal (a ++ x) a
| decimal_literal : forall a b x, a ++ b <> [] -> Forall digit a -> Forall digit b -> exponent x ->
    literal (a ++ lit "." ++ b ++ x) (a ++ b).
Definition all_zero (ds : text) : Prop := Forall (eq 48%N) ds.

(** The open part. *)
Record interp := {
  state : Type;
  other : Type;
  num : Type;
  (* numbers *)
  ncmp : num -> num -> comparison;
  isnan : num -> bool;
  nlit : text -> num;                    (* a numeric literal *)
  nnat : nat -> num;
  nneg : num -> num;
  ninf : num;
  is_int : list (option num) -> bool;    (* stored as integers *)
  (* strings *)
  scmp : text -> text -> comparison;
  slit : text -> text;                   (* a string literal *)
  nstr : num -> text;                    (* as.character *)
  bstr : bool -> text;
  str_lgl : text -> option bool;         (* as.logical on a string *)
  (* other objects: what operators do on them, and elementwise is.na and
     duplicated, when they make sense *)
  o_cmp : cmpop -> value num other -> value num other -> option (value num other);
  o_in : value num other -> value num other -> option (value num other);
  o_not : other -> option (value num other);
  o_lgl : other -> option (list (option bool));
  o_isna : other -> option (list bool);
  o_dup : other -> option (list bool);
  o_logic : bool -> value num other -> value num other -> option (value num other);  (* [&] if true, or [|] *)
  o_sign : bool -> other -> option (value num other);                               (* [-] if true, or [+] *)
  o_isnum : other -> bool;
  o_isint : other -> bool;
  (* the rest of the language *)
  i_atom : atom -> state -> option (value num other * state);
  i_call : (state -> option (value num other * state)) ->
           list (option text * option (state -> option (value num other * state))) ->
           state -> option (value num other * state);
  i_sub : bool -> (state -> option (value num other * state)) ->
           list (option text * option (state -> option (value num other * state))) ->
           state -> option (value num other * state);
  i_ext : (state -> option (value num other * state)) -> text -> text ->
           state -> option (value num other * state);
  i_un : unop -> (state -> option (value num other * state)) ->
           state -> option (value num other * state);
  i_bin : binop -> (state -> option (value num other * state)) ->
           (state -> option (value num other * state)) ->
           state -> option (value num other * state);
  i_ifelse : list (option bool) -> option (value num other) -> option (value num other) ->
           state -> option (value num other * state);
  i_fun : list (text * option (state -> option (value num other * state))) ->
           (state -> option (value num other * state)) ->
           state -> option (value num other * state);
  i_for : text -> (state -> option (value num other * state)) ->
           (state -> option (value num other * state)) ->
           state -> option (value num other * state);
  i_while : (state -> option (value num other * state)) ->
           (state -> option (value num other * state)) ->
           state -> option (value num other * state);
  i_repeat : (state -> option (value num other * state)) ->
           state -> option (value num other * state);
  (* [x <- v], and the new value of [x] in [x[i] <- v], [x$n <- v], [f(x) <- v] *)
  i_set : text -> text -> value num other -> state -> option (value num other * state);
  i_set_sub : bool -> (state -> option (value num other * state)) ->
           list (option text * option (state -> option (value num other * state))) ->
           value num other -> state -> option (value num other * state);
  i_set_ext : (state -> option (value num other * state)) -> text -> text ->
           value num other -> state -> option (value num other * state);
  i_set_call : (state -> option (value num other * state)) ->
           list (option text * option (state -> option (value num other * state))) ->
           value num other -> state -> option (value num other * state);
  (* numbers behave *)
  nnat_cmp : forall a b, ncmp (nnat a) (nnat b) = Nat.compare a b;
  nnat_num : forall a, isnan (nnat a) = false;
  nlit_0 : nlit (lit "0") = nnat 0;
  nlit_1 : nlit (lit "1") = nnat 1;
  nlit_num : forall t, isnan (nlit t) = false;
  nlit_zero : forall t ds, literal t ds -> (ncmp (nlit t) (nnat 0) = Eq <-> all_zero ds);
  nneg_num : forall x, isnan (nneg x) = isnan x;
  nneg_zero : forall x, ncmp (nneg x) (nnat 0) = Eq <-> ncmp x (nnat 0) = Eq;
  ninf_num : isnan ninf = false;
  ninf_not_zero : ncmp ninf (nnat 0) <> Eq;
  (* operands matter only through what they compute *)
  i_call_ext : forall f f' a a', ceq f f' -> argseq a a' -> ceq (i_call f a) (i_call f' a');
  i_sub_ext : forall d f f' a a', ceq f f' -> argseq a a' -> ceq (i_sub d f a) (i_sub d f' a');
  i_ext_ext : forall f f' o n, ceq f f' -> ceq (i_ext f o n) (i_ext f' o n);
  i_un_ext : forall u f f', ceq f f' -> ceq (i_un u f) (i_un u f');
  i_bin_ext : forall o f f' g g', ceq f f' -> ceq g g' -> ceq (i_bin o f g) (i_bin o f' g');
  i_fun_ext : forall p p' f f', argseq p p' -> ceq f f' -> ceq (i_fun p f) (i_fun p' f');
  i_for_ext : forall v f f' g g', ceq f f' -> ceq g g' -> ceq (i_for v f g) (i_for v f' g');
  i_while_ext : forall f f' g g', ceq f f' -> ceq g g' -> ceq (i_while f g) (i_while f' g');
  i_repeat_ext : forall f f', ceq f f' -> ceq (i_repeat f) (i_repeat f');
  i_set_sub_ext : forall d f f' a a' v, ceq f f' -> argseq a a' ->
    ceq (i_set_sub d f a v) (i_set_sub d f' a' v);
  i_set_ext_ext : forall f f' o n v, ceq f f' -> ceq (i_set_ext f o n v) (i_set_ext f' o n v);
  i_set_call_ext : forall f f' a a' v, ceq f f' -> argseq a a' ->
    ceq (i_set_call f a v) (i_set_call f' a' v)
}.

Section Semantics.
  Variable I : interp.
  Notation val := (value (num I) (other I)).
  Definition comp := state I -> option (val * state I).

  (** ** Values *)

  Definition bnum (b : bool) : num I := nnat I (if b then 1 else 0).

  (** as.logical on a number: NA for NaN, FALSE for zero. *)
  Definition num_lgl (x : num I) : option bool :=
    if isnan I x then None
    else Some (match ncmp I x (nnat I 0) with Eq => false | _ => true end).

  Definition obind {A B} (x : option A) (f : A -> option B) : option B :=
    match x with Some a => f a | None => None end.

  (** as.logical. *)
  Definition to_lgl (v : val) : option (list (option bool)) :=
    match v with
    | VLgl l => Some l
    | VNum l => Some (map (fun x => obind x num_lgl) l)
    | VStr l => Some (map (fun x => obind x (str_lgl I)) l)
    | VNull => Some []
    | VOther o => o_lgl I o
    end.
  Definition to_num (v : val) : option (list (option (num I))) :=
    match v with
    | VLgl l => Some (map (option_map bnum) l)
    | VNum l => Some l
    | VNull => Some []
    | _ => None
    end.
  Definition to_str (v : val) : option (list (option text)) :=
    match v with
    | VLgl l => Some (map (option_map (bstr I)) l)
    | VNum l => Some (map (option_map (nstr I)) l)
    | VStr l => Some l
    | VNull => Some []
    | VOther _ => None
    end.

  (** [!v] *)
  Definition vnot (v : val) : option val :=
    match v with
    | VLgl l => Some (VLgl (map (option_map negb) l))
    | VNum l => Some (VLgl (map (fun x => option_map negb (obind x num_lgl)) l))
    | VNull => Some (VLgl [])
    | VStr _ => None
    | VOther o => o_not I o
    end.

  (** Recycling: elementwise on two vectors, the shorter one repeated; empty if
      one of them is. *)
  Definition recycle {A B C} (f : option A -> option B -> C) (l : list (option A)) (r : list (option B)) : list C :=
    match l, r with
    | [], _ | _, [] => []
    | _, _ => map (fun k => f (nth (k mod length l) l None) (nth (k mod length r) r None))
                  (seq 0 (Nat.max (length l) (length r)))
    end.

  Definition test (c : cmpop) (o : comparison) : bool :=
    match c, o with
    | CLt, Lt => true | CLt, _ => false
    | CGt, Gt => true | CGt, _ => false
    | CLe, Gt => false | CLe, _ => true
    | CGe, Lt => false | CGe, _ => true
    | CEq, Eq => true | CEq, _ => false
    | CNe, Eq => false | CNe, _ => true
    end.

  Definition ncompare (c : cmpop) (a b : option (num I)) : option bool :=
    match a, b with
    | Some x, Some y => if isnan I x || isnan I y then None else Some (test c (ncmp I x y))
    | _, _ => None
    end.
  Definition scompare (c : cmpop) (a b : option text) : option bool :=
    match a, b with
    | Some x, Some y => Some (test c (scmp I x y))
    | _, _ => None
    end.

  (** Comparison: as strings if one operand is a string, else as numbers. *)
  Definition compare (c : cmpop) (v w : val) : option val :=
    match v, w with
    | VOther _, _ | _, VOther _ => o_cmp I c v w
    | VStr _, _ | _, VStr _ =>
        match to_str v, to_str w with
        | Some a, Some b => Some (VLgl (recycle (scompare c) a b))
        | _, _ => None
        end
    | _, _ =>
        match to_num v, to_num w with
        | Some a, Some b => Some (VLgl (recycle (ncompare c) a b))
        | _, _ => None
        end
    end.

  (** any() and all(): three-valued. *)
  Definition any3 (l : list (option bool)) : option bool :=
    if existsb (fun x => match x with Some true => true | _ => false end) l then Some true
    else if existsb (fun x => match x with None => true | _ => false end) l then None
    else Some false.
  Definition all3 (l : list (option bool)) : option bool :=
    if existsb (fun x => match x with Some false => true | _ => false end) l then Some false
    else if existsb (fun x => match x with None => true | _ => false end) l then None
    else Some true.
  Definition vany (v : val) : option val := option_map (fun l => VLgl [any3 l]) (to_lgl v).
  Definition vall (v : val) : option val := option_map (fun l => VLgl [all3 l]) (to_lgl v).

  (** is.na(), elementwise. *)
  Definition isna (v : val) : option (list bool) :=
    match v with
    | VLgl l => Some (map (fun x => match x with None => true | _ => false end) l)
    | VNum l => Some (map (fun x => match x with None => true | Some n => isnan I n end) l)
    | VStr l => Some (map (fun x => match x with None => true | _ => false end) l)
    | VNull => Some []
    | VOther o => o_isna I o
    end.
  Definition lgls (l : list bool) : val := VLgl (map Some l).
  Definition visna (v : val) : option val := option_map lgls (isna v).
  Definition vanyna (v : val) : option val :=
    option_map (fun l => lgls [existsb (fun b => b) l]) (isna v).

  (** duplicated(), elementwise: an equal element came before. *)
  Fixpoint dups {A} (eqb : A -> A -> bool) (seen l : list A) : list bool :=
    match l with
    | [] => []
    | x :: l' => existsb (eqb x) seen :: dups eqb (seen ++ [x]) l'
    end.
  Definition oeqb {A} (eqb : A -> A -> bool) (x y : option A) : bool :=
    match x, y with Some a, Some b => eqb a b | None, None => true | _, _ => false end.
  Definition neqb (x y : num I) : bool :=
    match ncmp I x y with Eq => true | _ => false end.
  Definition dup (v : val) : option (list bool) :=
    match v with
    | VLgl l => Some (dups (oeqb Bool.eqb) [] l)
    | VNum l => Some (dups (oeqb neqb) [] l)
    | VStr l => Some (dups (oeqb teqb) [] l)
    | VNull => Some []
    | VOther o => o_dup I o
    end.
  Definition vdup (v : val) : option val := option_map lgls (dup v).
  (** anyDuplicated(): the 1-based index of the first duplicate, or 0. *)
  Fixpoint first_true (k : nat) (l : list bool) : nat :=
    match l with
    | [] => 0
    | true :: _ => k
    | false :: l' => first_true (S k) l'
    end.
  Definition vanydup (v : val) : option val :=
    option_map (fun l => VNum [Some (nnat I (first_true 1 l))]) (dup v).

  Definition visnull (v : val) : option val :=
    Some (lgls [match v with VNull => true | _ => false end]).

  Definition visnum (v : val) : option val :=
    Some (lgls [match v with VNum _ => true | VOther o => o_isnum I o | _ => false end]).
  Definition visint (v : val) : option val :=
    Some (lgls [match v with VNum l => is_int I l | VOther o => o_isint I o | _ => false end]).

  (** [-v] and [+v]. *)
  Definition vsign (minus : bool) (v : val) : option val :=
    let f := if minus then nneg I else fun x => x in
    match v with
    | VLgl l => Some (VNum (map (fun x => option_map f (option_map bnum x)) l))
    | VNum l => Some (VNum (map (option_map f) l))
    | VNull | VStr _ => None
    | VOther o => o_sign I minus o
    end.

  (** Three-valued logic, [&] if [c] is true and [|] if not. *)
  Definition logic3 (c : bool) (a b : option bool) : option bool :=
    let stop := negb c in
    match a, b with
    | Some x, Some y => Some (if c then x && y else x || y)
    | Some x, None | None, Some x => if Bool.eqb x stop then Some stop else None
    | None, None => None
    end.
  Definition vlogic (c : bool) (v w : val) : option val :=
    match v, w with
    | VOther _, _ | _, VOther _ => o_logic I c v w
    | VStr _, _ | _, VStr _ => None
    | _, _ =>
        match to_lgl v, to_lgl w with
        | Some a, Some b => Some (VLgl (recycle (logic3 c) a b))
        | _, _ => None
        end
    end.
  (** An operand of [&&] or [||]: a single logical or numeric value; NA for an
      empty vector. *)
  Definition single (v : val) : option (option bool) :=
    match v with
    | VStr _ | VNull => None
    | _ => match to_lgl v with Some [] => Some None | Some [b] => Some b | _ => None end
    end.

  (** [x %in% table]: NA matches NA, NaN matches NaN. *)
  Definition nsame (x y : option (num I)) : bool :=
    match x, y with
    | Some a, Some b => if isnan I a then isnan I b else negb (isnan I b) && neqb a b
    | None, None => true
    | _, _ => false
    end.
  Definition vin (v w : val) : option val :=
    match v, w with
    | VOther _, _ | _, VOther _ => o_in I v w
    | VStr _, _ | _, VStr _ =>
        match to_str v, to_str w with
        | Some a, Some b => Some (lgls (map (fun x => existsb (oeqb teqb x) b) a))
        | _, _ => None
        end
    | _, _ =>
        match to_num v, to_num w with
        | Some a, Some b => Some (lgls (map (fun x => existsb (nsame x) b) a))
        | _, _ => None
        end
    end.

  (** The condition of an [if]. *)
  Definition cond (v : val) : option bool :=
    match to_lgl v with Some [Some b] => Some b | _ => None end.

  (** ** Computations *)
  Definition cret (v : val) : comp := fun s => Some (v, s).
  Definition cfail : comp := fun _ => None.
  Definition cbind (c : comp) (k : val -> comp) : comp :=
    fun s => match c s with Some (v, s') => k v s' | None => None end.
  Definition clift (o : option val) : comp :=
    match o with Some v => cret v | None => cfail end.
  Definition strict1 (f : val -> option val) (c : comp) : comp :=
    cbind c (fun v => clift (f v)).
  Definition strict2 (f : val -> val -> option val) (c d : comp) : comp :=
    cbind c (fun v => cbind d (fun w => clift (f v w))).

  (** Functions of one argument with a fixed meaning. *)
  Definition builtin1 (n : text) : option (val -> option val) :=
    if teqb n (lit "any") then Some vany
    else if teqb n (lit "all") then Some vall
    else if teqb n (lit "is.na") then Some visna
    else if teqb n (lit "anyNA") then Some vanyna
    else if teqb n (lit "duplicated") then Some vdup
    else if teqb n (lit "anyDuplicated") then Some vanydup
    else if teqb n (lit "is.null") then Some visnull
    else if teqb n (lit "is.numeric") then Some visnum
    else if teqb n (lit "is.integer") then Some visint
    else None.

  (** ifelse(test, yes, no): [yes] is evaluated if some element of [test] is
      TRUE, then [no] if some element is FALSE.  The result is described when
      both are single logical values. *)
  Definition pick (b : option bool) (y n : option bool) : option bool :=
    match b with Some true => y | Some false => n | None => None end.
  Definition one_lgl (v : option val) : option (option bool) :=
    match v with Some (VLgl [x]) => Some x | None => Some None | _ => None end.
  Definition has (b : bool) (l : list (option bool)) : bool :=
    existsb (fun x => match x with Some c => Bool.eqb b c | None => false end) l.
  Definition ifelse (test : val -> option (list (option bool))) (c y n : comp) : comp :=
    cbind c (fun v =>
      match test v with
      | None => cfail
      | Some l => fun s =>
          let ev (b : bool) (d : comp) (s : state I) : option (option val * state I) :=
            if has b l then match d s with Some (w, s') => Some (Some w, s') | None => None end
            else Some (None, s) in
          match ev true y s with
          | None => None
          | Some (vy, s1) =>
              match ev false n s1 with
              | None => None
              | Some (vn, s2) =>
                  match one_lgl vy, one_lgl vn with
                  | Some a, Some b => Some (VLgl (map (fun x => pick x a b) l), s2)
                  | _, _ => i_ifelse I l vy vn s2
                  end
              end
          end
      end).
  Definition lgl_only (v : val) : option (list (option bool)) :=
    match v with VLgl l => Some l | _ => None end.

  (** R's argument matching for a function with three formals and exactly three
      arguments: by exact name first, then the unnamed ones in order. *)
  Definition named_arg (n : text) (args : list (option text * option comp)) : option (option comp) :=
    option_map snd (find (fun a => match fst a with Some m => teqb m n | None => false end) args).
  Fixpoint match_args (formals : list text) (args : list (option text * option comp))
           (unnamed : list (option comp)) : option (list (option comp)) :=
    match formals with
    | [] => match unnamed with [] => Some [] | _ => None end
    | n :: fs =>
        match named_arg n args, unnamed with
        | Some c, u => option_map (cons c) (match_args fs args u)
        | None, c :: u => option_map (cons c) (match_args fs args u)
        | None, [] => None
        end
    end.
  Definition unnamed_args (args : list (option text * option comp)) : list (option comp) :=
    map snd (filter (fun a => match fst a with None => true | _ => false end) args).
  Definition match3 (a b c : text) (args : list (option text * option comp)) : option (comp * comp * comp) :=
    if length args =? 3 then
      match match_args [a; b; c] args (unnamed_args args) with
      | Some [Some x; Some y; Some z] => Some (x, y, z)
      | _ => None
      end
    else None.

  Definition builtin3 (n : text) (args : list (option text * option comp)) : option comp :=
    if teqb n (lit "ifelse") then
      option_map (fun t => ifelse to_lgl (fst (fst t)) (snd (fst t)) (snd t))
                 (match3 (lit "test") (lit "yes") (lit "no") args)
    else if teqb n (lit "fifelse") then
      option_map (fun t => ifelse lgl_only (fst (fst t)) (snd (fst t)) (snd t))
                 (match3 (lit "test") (lit "yes") (lit "no") args)
    else if teqb n (lit "if_else") then
      option_map (fun t => ifelse lgl_only (fst (fst t)) (snd (fst t)) (snd t))
                 (match3 (lit "condition") (lit "true") (lit "false") args)
    else None.

  (** The function a call refers to, if it is one of those above: [any], or
      [base::any]; [if_else] is dplyr's and [fifelse] is data.table's. *)
  Definition home (n : text) : text :=
    if teqb n (lit "if_else") then lit "dplyr"
    else if teqb n (lit "fifelse") then lit "data.table"
    else lit "base".
  Definition fname (f : expr) : option text :=
    match f with
    | EAtom (AId n) => Some n
    | EAtom (ANs p _ n) => if teqb p (home n) then Some n else None
    | _ => None
    end.

  Definition apply (f : option text) (cf : comp) (args : list (option text * option comp)) : comp :=
    match f with
    | None => i_call I cf args
    | Some n =>
        match builtin1 n, args with
        | Some g, [(None, Some c)] => strict1 g c
        | _, _ =>
            match builtin3 n args with
            | Some c => c
            | None => i_call I cf args
            end
        end
    end.

  Definition atom_sem (a : atom) : comp :=
    match a with
    | ATrue => cret (VLgl [Some true])
    | AFalse => cret (VLgl [Some false])
    | ANull => cret VNull
    | ANa t => if teqb t (lit "NA") then cret (VLgl [None]) else i_atom I a
    | ANum t => cret (VNum [Some (nlit I t)])
    | AStr t => cret (VStr [Some (slit I t)])
    | AOther t => if teqb t (lit "Inf") then cret (VNum [Some (ninf I)]) else i_atom I a
    | _ => i_atom I a
    end.

  (** [c && d] (if [a] is true) and [c || d]: [d] is evaluated only if needed. *)
  Definition shortcut (a : bool) (c d : comp) : comp :=
    cbind c (fun v =>
      match single v with
      | None => cfail
      | Some x =>
          if match x with Some b => Bool.eqb b (negb a) | None => false end then cret (VLgl [x])
          else cbind d (fun w =>
            match single w with
            | None => cfail
            | Some y => cret (VLgl [logic3 a x y])
            end)
      end).

  (** Binary operators with a fixed meaning: comparisons, [%in%], [%||%] and the
      logical ones. *)
  Definition bin_sem (o : binop) (c d : comp) : comp :=
    match o with
    | BAnd => strict2 (vlogic true) c d
    | BOr => strict2 (vlogic false) c d
    | BAnd2 => shortcut true c d
    | BOr2 => shortcut false c d
    | BCmp k => strict2 (compare k) c d
    | BSpecial t =>
        if teqb t (lit "%||%") then
          cbind c (fun v => match v with VNull => d | _ => cret v end)
        else if teqb t (lit "%in%") then strict2 vin c d
        else i_bin I o c d
    | _ => i_bin I o c d
    end.

  Definition un_sem (u : unop) (c : comp) : comp :=
    match u with
    | UNot => strict1 vnot c
    | UNeg => strict1 (vsign true) c
    | UPos => strict1 (vsign false) c
    | UTilde => i_un I u c
    end.

  Definition if_sem (c t : comp) (e : option comp) : comp :=
    cbind c (fun v =>
      match cond v with
      | Some true => t
      | Some false => match e with Some d => d | None => cret VNull end
      | None => cfail
      end).

  (** [->] assigns like [<-], and [->>] like [<<-]; [=] assigns like [<-]. *)
  Definition left_arrow (op : text) : text :=
    if teqb op (lit "->") then lit "<-"
    else if teqb op (lit "->>") then lit "<<-"
    else op.

  (** [eval e]: the computation of [e].
      [assign op e v]: make [e] refer to [v] ([x[i] <- v] computes the new [x]
      and assigns it).
      [piped c e]: [c |> e], that is [e] with [c] as its first argument. *)
  Fixpoint eval (e : expr) : comp :=
    match e with
    | EAtom a => atom_sem a
    | EParen e => eval e
    | EUn u e => un_sem u (eval e)
    | EBin BEq _ l r => cbind (eval r) (fun v => cbind (assign (lit "<-") l v) (fun _ => cret v))
    | EBin (BAssign op) _ l r => cbind (eval r) (fun v => cbind (assign op l v) (fun _ => cret v))
    | EBin (BRAssign op) _ l r => cbind (eval l) (fun v => cbind (assign (left_arrow op) r v) (fun _ => cret v))
    | EBin BPipe _ l r => piped (eval l) r
    | EBin o _ l r => bin_sem o (eval l) (eval r)
    | ECall f args =>
        apply (fname f) (eval f)
          (map (fun a : arg => (fst a, match snd a with Some v => Some (eval v) | None => None end)) args)
    | ESub d x args =>
        i_sub I d (eval x)
          (map (fun a : arg => (fst a, match snd a with Some v => Some (eval v) | None => None end)) args)
    | EExtract x o n => i_ext I (eval x) o n
    | EIf c t el => if_sem (eval c) (eval t) (match el with Some e => Some (eval e) | None => None end)
    | EFun ps b =>
        i_fun I (map (fun p : param => (fst p, match snd p with Some v => Some (eval v) | None => None end)) ps)
              (eval b)
    | EFor v s b => i_for I v (eval s) (eval b)
    | EWhile c b => i_while I (eval c) (eval b)
    | ERepeat b => i_repeat I (eval b)
    | EBraces es =>
        (fix go (l : list expr) : comp :=
           match l with
           | [] => cret VNull
           | [x] => eval x
           | x :: l' => cbind (eval x) (fun _ => go l')
           end) es
    end
  with assign (op : text) (e : expr) (v : val) {struct e} : comp :=
    match e with
    | EAtom (AId x) => i_set I op x v
    | EAtom (AStr x) => i_set I op x v
    | ESub d x args =>
        cbind (i_set_sub I d (eval x)
                 (map (fun a : arg => (fst a, match snd a with Some v => Some (eval v) | None => None end)) args) v)
              (fun w => assign op x w)
    | EExtract x o n => cbind (i_set_ext I (eval x) o n v) (fun w => assign op x w)
    | ECall f args =>
        match args with
        | (None, Some x) :: _ =>
            cbind (i_set_call I (eval f)
                     (map (fun a : arg => (fst a, match snd a with Some v => Some (eval v) | None => None end)) args) v)
                  (fun w => assign op x w)
        | _ => cfail
        end
    | _ => cfail
    end
  with piped (c : comp) (e : expr) {struct e} : comp :=
    match e with
    | ECall f args =>
        apply (fname f) (eval f)
          ((None, Some c) ::
           map (fun a : arg => (fst a, match snd a with Some v => Some (eval v) | None => None end)) args)
    | _ => cfail
    end.

  (** Running a program: the values of its statements up to the first failure,
      and the final state if there is none. *)
  Fixpoint run (p : prog) (s : state I) : list val * option (state I) :=
    match p with
    | [] => ([], Some s)
    | e :: p' =>
        match eval e s with
        | None => ([], None)
        | Some (v, s') => let (vs, o) := run p' s' in (v :: vs, o)
        end
    end.
End Semantics.

(** Two programs that behave the same, under every interpretation [P] allows. *)
Definition same_behaviour (P : interp -> Prop) (p q : prog) : Prop :=
  forall I, P I -> forall s, run I p s = run I q s.

(** An edit is harmless when R reads the file before and after it, and both
    programs behave the same. *)
Definition harmless (P : interp -> Prop) (old new : list tok) : Prop :=
  exists p q, reads old p /\ reads new q /\ same_behaviour P p q.
