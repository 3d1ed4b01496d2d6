(** How R reads a sequence of tokens.

    An operator-precedence parser for the part of R's grammar in
    Model/RExpr.v, following the precedence table of R's own grammar
    (src/main/gram.y): from loosest to tightest, function/if/for/while/repeat,
    [=], the arrow assignments, [->], [~], [|], [&], [!], comparisons (which do not
    associate), [+ -], [* /], [%op%] and the pipe, [:], unary [+ -], [^],
    and calls, subsetting and [$].

    [reads ts p] says that R reads the file [ts] as the program [p];
    [syntax_error ts] that it rejects it. *)
From Verif Require Export Model.RExpr.

(** Binding power of an infix operator seen from its left: an operator is
    taken into an operand being read at level [m] when [m <= lbp o]. *)
Definition lbp (o : binop) : nat :=
  match o with
  | BEq => 3
  | BAssign _ => 5
  | BRAssign _ => 7
  | BTilde => 8
  | BOr | BOr2 => 9
  | BAnd | BAnd2 => 10
  | BCmp _ => 12
  | BAdd | BSub => 13
  | BMul | BDiv => 14
  | BSpecial _ | BPipe => 15
  | BColon => 17
  | BPow => 19
  end.

(** The level at which the right operand is read: one more than [lbp] for the
    operators that associate to the left, [lbp] itself for [=], [<-] and [^]. *)
Definition rbp (o : binop) : nat :=
  match o with
  | BEq => 3
  | BAssign _ => 5
  | BPow => 19
  | _ => S (lbp o)
  end.

(** Arguments, default values, conditions and the sequence of a [for] are read
    at this level: [=] is not an assignment there. *)
Definition arg_level : nat := 4.

(** The level at which the operand of a prefix operator is read. *)
Definition ubp (u : unop) : nat :=
  match u with
  | UNot => 12
  | UNeg | UPos => 18
  | UTilde => 9
  end.

Definition is_cmp (o : binop) : bool :=
  match o with BCmp _ => true | _ => false end.

(** An unparenthesised comparison. *)
Definition cmp_top (e : expr) : bool :=
  match e with EBin o _ _ _ => is_cmp o | _ => false end.

(** The infix operator that comes next, if any.  Inside parentheses ([i]) a
    line break before it does not count. *)
Definition next_op (i : bool) (ts : list tok) : option (binop * bool * list tok) :=
  match ts with
  | TOp o :: r => Some (o, false, r)
  | TNl :: TOp o :: r => if i then Some (o, true, r) else None
  | _ => None
  end.

Inductive pres (A : Type) :=
| POut                                  (* more steps needed *)
| PErr                                  (* syntax error *)
| POk (a : A) (rest : list tok).
Arguments POut {A}. Arguments PErr {A}. Arguments POk {A}.

Definition pbind {A B} (x : pres A) (k : A -> list tok -> pres B) : pres B :=
  match x with
  | POut => POut
  | PErr => PErr
  | POk a r => k a r
  end.

(** [n] bounds the number of steps; [i] says whether line breaks are ignored;
    [m] is the level. *)
Fixpoint pexp (n : nat) (i : bool) (m : nat) (ts : list tok) {struct n} : pres expr :=
  match n with
  | 0 => POut
  | S n =>
      match ts with
      | TAtom a :: r => ploop n i m (EAtom a) r
      | TLp :: r =>
          pbind (pexp n true 0 r) (fun e r =>
            match r with TRp :: r => ploop n i m (EParen e) r | _ => PErr end)
      | TBang :: r => pbind (pexp n i 12 r) (fun e r => ploop n i m (EUn UNot e) r)
      | TOp BSub :: r => pbind (pexp n i 18 r) (fun e r => ploop n i m (EUn UNeg e) r)
      | TOp BAdd :: r => pbind (pexp n i 18 r) (fun e r => ploop n i m (EUn UPos e) r)
      | TOp BTilde :: r => pbind (pexp n i 9 r) (fun e r => ploop n i m (EUn UTilde e) r)
      | TLc :: TRc :: r => ploop n i m (EBraces []) r
      | TLc :: r =>
          pbind (pseq n r) (fun es r =>
            match r with TRc :: r => ploop n i m (EBraces es) r | _ => PErr end)
      | TIf :: TLp :: r =>
          pbind (pexp n true arg_level r) (fun c r =>
            match r with
            | TRp :: r =>
                pbind (pexp n i 0 r) (fun t r =>
                  match r with
                  | TElse :: r =>
                      pbind (pexp n i 0 r) (fun e r => ploop n i m (EIf c t (Some e)) r)
                  | _ => ploop n i m (EIf c t None) r
                  end)
            | _ => PErr
            end)
      | TFun :: TLp :: TRp :: r =>
          pbind (pexp n i 0 r) (fun b r => ploop n i m (EFun [] b) r)
      | TFun :: TLp :: r =>
          pbind (pparams n r) (fun ps r =>
            match r with
            | TRp :: r => pbind (pexp n i 0 r) (fun b r => ploop n i m (EFun ps b) r)
            | _ => PErr
            end)
      | TFor :: TLp :: TAtom (AId v) :: TIn :: r =>
          pbind (pexp n true arg_level r) (fun s r =>
            match r with
            | TRp :: r => pbind (pexp n i 0 r) (fun b r => ploop n i m (EFor v s b) r)
            | _ => PErr
            end)
      | TWhile :: TLp :: r =>
          pbind (pexp n true arg_level r) (fun c r =>
            match r with
            | TRp :: r => pbind (pexp n i 0 r) (fun b r => ploop n i m (EWhile c b) r)
            | _ => PErr
            end)
      | TRepeat :: r => pbind (pexp n i 0 r) (fun b r => ploop n i m (ERepeat b) r)
      | _ => PErr
      end
  end

(** What may follow an expression already read. *)
with ploop (n : nat) (i : bool) (m : nat) (l : expr) (ts : list tok) {struct n} : pres expr :=
  match n with
  | 0 => POut
  | S n =>
      match next_op i ts with
      | Some (o, nl, r) =>
          if m <=? lbp o then
            if is_cmp o && cmp_top l then PErr
            else pbind (pexp n i (rbp o) r) (fun e r => ploop n i m (EBin o nl l e) r)
          else POk l ts
      | None =>
          match ts with
          | TLp :: TRp :: r => ploop n i m (ECall l []) r
          | TLp :: r =>
              pbind (pargs n r) (fun a r =>
                match r with TRp :: r => ploop n i m (ECall l a) r | _ => PErr end)
          | TLb d :: TRb d' :: r =>
              if Bool.eqb d d' then ploop n i m (ESub d l []) r else PErr
          | TLb d :: r =>
              pbind (pargs n r) (fun a r =>
                match r with
                | TRb d' :: r => if Bool.eqb d d' then ploop n i m (ESub d l a) r else PErr
                | _ => PErr
                end)
          | TExtract o x :: r => ploop n i m (EExtract l o x) r
          | _ => POk l ts
          end
      end
  end

(** One or more arguments. *)
with pargs (n : nat) (ts : list tok) {struct n} : pres (list arg) :=
  match n with
  | 0 => POut
  | S n =>
      let '(nm, ts) := match ts with
                       | TAtom (AId x) :: TEq :: r => (Some x, r)
                       | _ => (None, ts)
                       end in
      pbind (match ts with
             | TComma :: _ | TRp :: _ | TRb _ :: _ => POk None ts
             | _ => pbind (pexp n true arg_level ts) (fun e r => POk (Some e) r)
             end) (fun v r =>
        match r with
        | TComma :: r => pbind (pargs n r) (fun l r => POk ((nm, v) :: l) r)
        | _ => POk [(nm, v)] r
        end)
  end

(** One or more parameters of a function definition. *)
with pparams (n : nat) (ts : list tok) {struct n} : pres (list param) :=
  match n with
  | 0 => POut
  | S n =>
      match ts with
      | TAtom (AId x) :: r =>
          pbind (match r with
                 | TEq :: r => pbind (pexp n true arg_level r) (fun e r => POk (Some e) r)
                 | _ => POk None r
                 end) (fun d r =>
            match r with
            | TComma :: r => pbind (pparams n r) (fun l r => POk ((x, d) :: l) r)
            | _ => POk [(x, d)] r
            end)
      | _ => PErr
      end
  end

(** One or more statements. *)
with pseq (n : nat) (ts : list tok) {struct n} : pres (list expr) :=
  match n with
  | 0 => POut
  | S n =>
      pbind (pexp n false 0 ts) (fun e r =>
        match r with
        | TNl :: r => pbind (pseq n r) (fun l r => POk (e :: l) r)
        | _ => POk [e] r
        end)
  end.

Definition pprog (n : nat) (ts : list tok) : pres prog :=
  match ts with
  | [] => POk [] []
  | _ => pbind (pseq n ts) (fun p r => match r with [] => POk p [] | _ => PErr end)
  end.

Definition reads (ts : list tok) (p : prog) : Prop :=
  exists n, pprog n ts = POk p [].
Definition syntax_error (ts : list tok) : Prop :=
  exists n, pprog n ts = PErr.
