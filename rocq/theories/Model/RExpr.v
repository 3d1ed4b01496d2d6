(** R expressions as the rules see them: the syntax tree, its tokens, and the
    position of a node in a file.

    jarl parses a file with air's parser and every rule works on the typed
    syntax tree (/repo/crates/jarl-core/src/analyze/expression.rs:22-133 matches
    on its node kinds).  A fix is a piece of text put in place of the text of a
    node, and the text of a node is the sequence of its tokens.

    Simplifications: text is a sequence of tokens, so spaces, comments and the
    spelling of a token are not represented; a line break is represented only
    where it can matter, that is before a binary operator (a line break there
    ends a statement, except inside parentheses) and between statements; the
    help operator, lambdas written with a
    backslash, argument names that are not identifiers, and [$] or [@] followed
    by something that is not an identifier are left out. *)
From Verif Require Export Model.Text.

(** Literals, identifiers and [pkg::name]: expressions of a single token
    (analyze/expression.rs:26 AnyRValue, :70 RIdentifier, :88
    RNamespaceExpression; TRUE, FALSE, NULL, NA, and so on are node kinds of
    their own and are matched by the fall-through arm :129). *)
Inductive atom :=
| AId (x : text)
| ANum (t : text)
| AStr (t : text)
| ATrue | AFalse | ANull
| ANa (t : text)
| ANs (pkg : text) (internal : bool) (name : text)
| AOther (t : text).

Inductive cmpop := CLt | CLe | CGt | CGe | CEq | CNe.

Inductive binop :=
| BEq                         (* = *)
| BAssign (t : text)          (* <-, <<- and := *)
| BRAssign (t : text)         (* -> and ->> *)
| BTilde
| BOr | BOr2 | BAnd | BAnd2
| BCmp (c : cmpop)
| BAdd | BSub | BMul | BDiv
| BSpecial (t : text)         (* %in%, %||%, %%, ... *)
| BPipe
| BColon
| BPow.

Inductive unop := UNot | UNeg | UPos | UTilde.

(** The syntax tree.  [nl] in [EBin] says that a line break precedes the
    operator.  An argument has an optional name and an optional value. *)
Inductive expr :=
| EAtom (a : atom)
| EParen (e : expr)
| EUn (u : unop) (e : expr)
| EBin (o : binop) (nl : bool) (l r : expr)
| ECall (f : expr) (args : list (option text * option expr))
| ESub (double : bool) (x : expr) (args : list (option text * option expr))
| EExtract (x : expr) (op name : text)
| EIf (c t : expr) (el : option expr)
| EFun (params : list (text * option expr)) (body : expr)
| EFor (v : text) (s b : expr)
| EWhile (c b : expr)
| ERepeat (b : expr)
| EBraces (es : list expr).

Definition arg := (option text * option expr)%type.
Definition param := (text * option expr)%type.

(** Tokens. *)
Inductive tok :=
| TAtom (a : atom)
| TBang
| TOp (o : binop)
| TLp | TRp
| TLb (double : bool) | TRb (double : bool)
| TLc | TRc
| TComma | TNl
| TExtract (op name : text)
| TIf | TElse | TFun | TFor | TIn | TWhile | TRepeat.

(** The token [=] also separates the name of an argument from its value. *)
Notation TEq := (TOp BEq).

Definition utok (u : unop) : tok :=
  match u with
  | UNot => TBang
  | UNeg => TOp BSub
  | UPos => TOp BAdd
  | UTilde => TOp BTilde
  end.

(** [sep s [a; b; c] = a ++ s ++ b ++ s ++ c]. *)
Fixpoint sep (s : list tok) (l : list (list tok)) : list tok :=
  match l with
  | [] => []
  | [x] => x
  | x :: l' => x ++ s ++ sep s l'
  end.

Definition name_toks (n : option text) : list tok :=
  match n with Some x => [TAtom (AId x); TEq] | None => [] end.

(** The text of a node ([to_trimmed_text], [text_trimmed]). *)
Fixpoint toks (e : expr) : list tok :=
  match e with
  | EAtom a => [TAtom a]
  | EParen e => TLp :: toks e ++ [TRp]
  | EUn u e => utok u :: toks e
  | EBin o nl l r => toks l ++ (if nl then [TNl] else []) ++ TOp o :: toks r
  | ECall f args =>
      toks f ++ TLp ::
      sep [TComma]
          (map (fun a : arg => name_toks (fst a) ++
                  match snd a with Some v => toks v | None => [] end) args)
      ++ [TRp]
  | ESub d x args =>
      toks x ++ TLb d ::
      sep [TComma]
          (map (fun a : arg => name_toks (fst a) ++
                  match snd a with Some v => toks v | None => [] end) args)
      ++ [TRb d]
  | EExtract x o n => toks x ++ [TExtract o n]
  | EIf c t el =>
      TIf :: TLp :: toks c ++ TRp :: toks t ++
      match el with Some e => TElse :: toks e | None => [] end
  | EFun ps b =>
      TFun :: TLp ::
      sep [TComma]
          (map (fun p : param => TAtom (AId (fst p)) ::
                  match snd p with Some d => TEq :: toks d | None => [] end) ps)
      ++ TRp :: toks b
  | EFor v s b => TFor :: TLp :: TAtom (AId v) :: TIn :: toks s ++ TRp :: toks b
  | EWhile c b => TWhile :: TLp :: toks c ++ TRp :: toks b
  | ERepeat b => TRepeat :: toks b
  | EBraces es => TLc :: sep [TNl] (map toks es) ++ [TRc]
  end.

Definition opt_toks (v : option expr) : list tok :=
  match v with Some e => toks e | None => [] end.
Definition arg_toks (a : arg) : list tok := name_toks (fst a) ++ opt_toks (snd a).
Definition args_toks (l : list arg) : list tok := sep [TComma] (map arg_toks l).
Definition param_toks (p : param) : list tok :=
  TAtom (AId (fst p)) :: match snd p with Some d => TEq :: toks d | None => [] end.
Definition params_toks (l : list param) : list tok := sep [TComma] (map param_toks l).

(** A file is a list of statements, one per line. *)
Definition prog := list expr.
Definition prog_toks (p : prog) : list tok := sep [TNl] (map toks p).

(** ** Positions

    The position of a node in an expression: the frames around it, innermost
    first ([ast.syntax().parent()] is the head of the list). *)
Inductive frame :=
| FParen
| FUn (u : unop)
| FBinL (o : binop) (nl : bool) (r : expr)
| FBinR (o : binop) (nl : bool) (l : expr)
| FCallF (args : list arg)
| FCallA (f : expr) (pre : list arg) (n : option text) (post : list arg)
| FSubX (d : bool) (args : list arg)
| FSubA (d : bool) (x : expr) (pre : list arg) (n : option text) (post : list arg)
| FExtract (op name : text)
| FIfC (t : expr) (el : option expr)
| FIfT (c : expr) (el : option expr)
| FIfE (c t : expr)
| FFunP (pre : list param) (n : text) (post : list param) (b : expr)
| FFunB (ps : list param)
| FForS (v : text) (b : expr)
| FForB (v : text) (s : expr)
| FWhileC (b : expr)
| FWhileB (c : expr)
| FRepeat
| FBraces (pre post : list expr).

Definition fill (f : frame) (e : expr) : expr :=
  match f with
  | FParen => EParen e
  | FUn u => EUn u e
  | FBinL o nl r => EBin o nl e r
  | FBinR o nl l => EBin o nl l e
  | FCallF args => ECall e args
  | FCallA f pre n post => ECall f (pre ++ (n, Some e) :: post)
  | FSubX d args => ESub d e args
  | FSubA d x pre n post => ESub d x (pre ++ (n, Some e) :: post)
  | FExtract o n => EExtract e o n
  | FIfC t el => EIf e t el
  | FIfT c el => EIf c e el
  | FIfE c t => EIf c t (Some e)
  | FFunP pre n post b => EFun (pre ++ (n, Some e) :: post) b
  | FFunB ps => EFun ps e
  | FForS v b => EFor v e b
  | FForB v s => EFor v s e
  | FWhileC b => EWhile e b
  | FWhileB c => EWhile c e
  | FRepeat => ERepeat e
  | FBraces pre post => EBraces (pre ++ e :: post)
  end.

Fixpoint plug (fs : list frame) (e : expr) : expr :=
  match fs with
  | [] => e
  | f :: fs' => plug fs' (fill f e)
  end.

(** The tokens before and after the node in a frame. *)
Definition sep_before (s : list tok) (l : list (list tok)) : list tok :=
  concat (map (fun x => x ++ s) l).
Definition sep_after (s : list tok) (l : list (list tok)) : list tok :=
  concat (map (fun x => s ++ x) l).

Definition frame_pre (f : frame) : list tok :=
  match f with
  | FParen => [TLp]
  | FUn u => [utok u]
  | FBinL _ _ _ => []
  | FBinR o nl l => toks l ++ (if nl then [TNl] else []) ++ [TOp o]
  | FCallF _ => []
  | FCallA f pre n _ =>
      toks f ++ TLp :: sep_before [TComma] (map arg_toks pre) ++ name_toks n
  | FSubX _ _ => []
  | FSubA d x pre n _ =>
      toks x ++ TLb d :: sep_before [TComma] (map arg_toks pre) ++ name_toks n
  | FExtract _ _ => []
  | FIfC _ _ => [TIf; TLp]
  | FIfT c _ => TIf :: TLp :: toks c ++ [TRp]
  | FIfE c t => TIf :: TLp :: toks c ++ TRp :: toks t ++ [TElse]
  | FFunP pre n _ _ =>
      TFun :: TLp :: sep_before [TComma] (map param_toks pre) ++ [TAtom (AId n); TEq]
  | FFunB ps => TFun :: TLp :: params_toks ps ++ [TRp]
  | FForS v _ => [TFor; TLp; TAtom (AId v); TIn]
  | FForB v s => TFor :: TLp :: TAtom (AId v) :: TIn :: toks s ++ [TRp]
  | FWhileC _ => [TWhile; TLp]
  | FWhileB c => TWhile :: TLp :: toks c ++ [TRp]
  | FRepeat => [TRepeat]
  | FBraces pre _ => TLc :: sep_before [TNl] (map toks pre)
  end.

Definition frame_post (f : frame) : list tok :=
  match f with
  | FParen => [TRp]
  | FUn _ => []
  | FBinL o nl r => (if nl then [TNl] else []) ++ TOp o :: toks r
  | FBinR _ _ _ => []
  | FCallF args => TLp :: args_toks args ++ [TRp]
  | FCallA _ _ _ post => sep_after [TComma] (map arg_toks post) ++ [TRp]
  | FSubX d args => TLb d :: args_toks args ++ [TRb d]
  | FSubA d _ _ _ post => sep_after [TComma] (map arg_toks post) ++ [TRb d]
  | FExtract o n => [TExtract o n]
  | FIfC t el =>
      TRp :: toks t ++ match el with Some e => TElse :: toks e | None => [] end
  | FIfT _ el => match el with Some e => TElse :: toks e | None => [] end
  | FIfE _ _ => []
  | FFunP _ _ post b => sep_after [TComma] (map param_toks post) ++ TRp :: toks b
  | FFunB _ => []
  | FForS _ b => TRp :: toks b
  | FForB _ _ => []
  | FWhileC b => TRp :: toks b
  | FWhileB _ => []
  | FRepeat => []
  | FBraces _ post => sep_after [TNl] (map toks post) ++ [TRc]
  end.

Fixpoint pre_toks (fs : list frame) : list tok :=
  match fs with
  | [] => []
  | f :: fs' => pre_toks fs' ++ frame_pre f
  end.
Fixpoint post_toks (fs : list frame) : list tok :=
  match fs with
  | [] => []
  | f :: fs' => frame_post f ++ post_toks fs'
  end.

(** A node of a file: the statements before and after the one it is in, and
    its position in that statement. *)
Record place := mk_place { before : prog; frames : list frame; after : prog }.

Definition file_with (p : place) (e : expr) : prog :=
  before p ++ plug (frames p) e :: after p.

(** The text of the file with [c] as the text of that node: what an edit of
    the node's text to [c] produces (fix.rs:36-73). *)
Definition edited (p : place) (c : list tok) : list tok :=
  sep_before [TNl] (map toks (before p)) ++ pre_toks (frames p) ++ c ++
  post_toks (frames p) ++ sep_after [TNl] (map toks (after p)).
