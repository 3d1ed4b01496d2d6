(** What surrounds a node: the operator just before it, the operator just after
    it, and whether line breaks are ignored there.  Frames are listed innermost
    first. *)
From Verif Require Export Model.RExpr.

Inductive lop := LBin (o : binop) | LUn (u : unop) | LArg.
Inductive rop := ROp (o : binop) | RPost | RElse.

(** The operator whose right (or only) operand starts with the node; or [LArg]
    at the start of an argument, a default value, a condition or the sequence of
    a [for]. *)
Fixpoint left_op (fs : list frame) : option lop :=
  match fs with
  | FUn u :: _ => Some (LUn u)
  | FBinR o _ _ :: _ => Some (LBin o)
  | (FBinL _ _ _ | FCallF _ | FSubX _ _ | FExtract _ _) :: fs' => left_op fs'
  | (FCallA _ _ _ _ | FSubA _ _ _ _ _ | FIfC _ _ | FFunP _ _ _ _ | FForS _ _ | FWhileC _) :: _ => Some LArg
  | _ => None
  end.
(** What precedes the node is the start of a statement, of a parenthesis or of
    an argument, or the arrow or [=] of an assignment of it. *)
Definition free_left (o : option lop) : bool :=
  match o with
  | None | Some LArg | Some (LBin (BEq | BAssign _)) => true
  | _ => false
  end.

(** What follows the node: an operator whose left operand ends with the node, a
    call or subset of it, or the [else] of an [if] whose branch ends with it. *)
Fixpoint right_op (fs : list frame) : option rop :=
  match fs with
  | FBinL o _ _ :: _ => Some (ROp o)
  | (FCallF _ | FSubX _ _ | FExtract _ _) :: _ => Some RPost
  | FIfT _ (Some _) :: _ => Some RElse
  | (FUn _ | FBinR _ _ _ | FIfT _ None | FIfE _ _ | FFunB _ | FForB _ _ | FWhileB _ | FRepeat) :: fs' =>
      right_op fs'
  | _ => None
  end.

(** Inside parentheses, brackets or the condition of an [if], [for] or [while]
    (and not in a braced block inside these). *)
Fixpoint enclosed (fs : list frame) : bool :=
  match fs with
  | [] => false
  | (FParen | FCallA _ _ _ _ | FSubA _ _ _ _ _ | FIfC _ _ | FFunP _ _ _ _ | FForS _ _ | FWhileC _) :: _ => true
  | FBraces _ _ :: _ => false
  | _ :: fs' => enclosed fs'
  end.

(** The node is what an assignment modifies: [x] in [x <- v], [x[i] <- v],
    [x$n <- v], [names(x) <- v], [v -> x]. *)
Fixpoint assigned (fs : list frame) : bool :=
  match fs with
  | FBinL (BEq | BAssign _) _ _ :: _ => true
  | FBinR (BRAssign _) _ _ :: _ => true
  | (FSubX _ _ | FExtract _ _) :: fs' => assigned fs'
  | FCallA _ [] None _ :: fs' => assigned fs'
  | _ => false
  end.

(** The node is the function of a call. *)
Definition callee (fs : list frame) : bool :=
  match fs with FCallF _ :: _ => true | _ => false end.

(** The node is what a pipe feeds. *)
Definition pipe_target (fs : list frame) : bool :=
  match fs with FBinR BPipe _ _ :: _ => true | _ => false end.

(** ** Room

    The neighbours of a node that bind looser than a comparison. *)
Definition loose_left (o : option lop) : bool :=
  match o with
  | None | Some LArg => true
  | Some (LBin (BEq | BAssign _ | BRAssign _ | BTilde | BOr | BOr2 | BAnd | BAnd2)) => true
  | Some (LUn (UNot | UTilde)) => true
  | _ => false
  end.
Definition loose_right (o : option rop) : bool :=
  match o with
  | None | Some RElse => true
  | Some (ROp (BEq | BAssign _ | BRAssign _ | BTilde | BOr | BOr2 | BAnd | BAnd2)) => true
  | _ => false
  end.

(** The expression has a line break before an operator, outside of all
    parentheses, brackets and braces in it. *)
Fixpoint breaks (e : expr) : bool :=
  match e with
  | EBin _ nl l r => nl || breaks l || breaks r
  | EUn _ e => breaks e
  | ECall f _ => breaks f
  | ESub _ x _ => breaks x
  | EExtract x _ _ => breaks x
  | EIf _ t el => breaks t || match el with Some e => breaks e | None => false end
  | EFun _ b => breaks b
  | EFor _ _ b => breaks b
  | EWhile _ b => breaks b
  | ERepeat b => breaks b
  | EAtom _ | EParen _ | EBraces _ => false
  end.

(** The expression ends with something whose own last part would take in a
    looser operator, or an [else], that follows. *)
Fixpoint swallows (e : expr) : bool :=
  match e with
  | EIf _ _ _ | EFun _ _ | EFor _ _ _ | EWhile _ _ | ERepeat _ => true
  | EUn (UNot | UTilde) _ => true
  | EUn _ e => swallows e
  | EBin _ _ _ r => swallows r
  | _ => false
  end.
