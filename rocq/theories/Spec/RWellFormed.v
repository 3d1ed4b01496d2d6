(** The trees that R's grammar produces, described without the parser: an
    operand that is not parenthesised binds tighter than the operator around
    it, and [=] assigns only where R accepts it.  Proofs/RParse.v proves that these are exactly the trees the parser of
    Spec/RGrammar.v returns, and that the parser returns them on their own
    text. *)
From Verif Require Export Spec.RGrammar.

(** The loosest operator on the left edge of an expression. *)
Fixpoint lmin (e : expr) : nat :=
  match e with
  | EBin o _ l _ => Nat.min (lbp o) (lmin l)
  | _ => 100
  end.

(** The loosest level at which something on the right edge of an expression
    still reads an operand: an operator that follows and binds at that level or
    tighter is taken into the expression. *)
Fixpoint rmin (e : expr) : nat :=
  match e with
  | EBin o _ _ r => Nat.min (rbp o) (rmin r)
  | EUn u e => Nat.min (ubp u) (rmin e)
  | EIf _ _ _ | EFun _ _ | EFor _ _ _ | EWhile _ _ | ERepeat _ => 0
  | _ => 100
  end.

(** The expression ends with an [if] that has no [else] yet. *)
Fixpoint opens (e : expr) : bool :=
  match e with
  | EIf _ _ None => true
  | EIf _ _ (Some e) => opens e
  | EUn _ e => opens e
  | EBin _ _ _ r => opens r
  | EFun _ b => opens b
  | EFor _ _ b => opens b
  | EWhile _ b => opens b
  | ERepeat b => opens b
  | _ => false
  end.

(** What may be called or subsetted without parentheses. *)
Definition primary (e : expr) : bool :=
  match e with
  | EAtom _ | EParen _ | ECall _ _ | ESub _ _ _ | EExtract _ _ _ | EBraces _ => true
  | _ => false
  end.

(** [i]: line breaks are ignored here. *)
Fixpoint wf (i : bool) (e : expr) : Prop :=
  match e with
  | EAtom _ => True
  | EParen e => wf true e
  | EUn u e => wf i e /\ ubp u <= lmin e
  | EBin o nl l r =>
      wf i l /\ wf i r /\ lbp o < rmin l /\ rbp o <= lmin r /\
      is_cmp o && cmp_top l = false /\ (nl = true -> i = true)
  | ECall f args =>
      wf i f /\ primary f = true /\ args <> [(None, None)] /\
      fold_right (fun (a : arg) P =>
        match snd a with Some v => wf true v /\ arg_level <= lmin v | None => True end /\ P) True args
  | ESub d x args =>
      wf i x /\ primary x = true /\ args <> [(None, None)] /\
      fold_right (fun (a : arg) P =>
        match snd a with Some v => wf true v /\ arg_level <= lmin v | None => True end /\ P) True args
  | EExtract x _ _ => wf i x /\ primary x = true
  | EIf c t el =>
      (wf true c /\ arg_level <= lmin c) /\ wf i t /\
      match el with Some e => opens t = false /\ wf i e | None => True end
  | EFun ps b =>
      fold_right (fun (a : param) P =>
        match snd a with Some v => wf true v /\ arg_level <= lmin v | None => True end /\ P) True ps /\ wf i b
  | EFor _ s b => (wf true s /\ arg_level <= lmin s) /\ wf i b
  | EWhile c b => (wf true c /\ arg_level <= lmin c) /\ wf i b
  | ERepeat b => wf i b
  | EBraces es => fold_right (fun e P => wf false e /\ P) True es
  end.

Definition owf (v : option expr) : Prop :=
  match v with Some e => wf true e /\ arg_level <= lmin e | None => True end.
