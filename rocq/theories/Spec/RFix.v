(** What it means for the fix of a report to be harmless. *)
From Verif Require Export Spec.RSemantics Spec.RPosition Model.Lints.

(** The place of the node a report is about, in the file of the node that was
    looked at. *)
Definition fix_place (p : place) (r : report) : place :=
  mk_place (before p) (at_frames r) (after p).

(** [p] and [e] describe a node of a file that R can read. *)
Definition node_of_file (p : place) (e : expr) : Prop :=
  reads (edited p (toks e)) (file_with p e).

(** The fix of the report, if it has one, leaves a file that R can read and
    that behaves like the original one. *)
Definition fix_harmless (P : interp -> Prop) (p : place) (e : expr) (r : report) : Prop :=
  forall c, new_text r = Some c ->
    harmless P (edited p (toks e)) (edited (fix_place p r) c).

(** What an expression may evaluate to. *)
Definition yields (I : interp) (e : expr) (K : value (num I) (other I) -> Prop) : Prop :=
  forall s v s', eval I e s = Some (v, s') -> K v.
(** A vector without a class of its own, or NULL. *)
Definition plain {num other} (v : value num other) : Prop :=
  match v with VOther _ => False | _ => True end.
(** A logical vector. *)
Definition logical {num other} (v : value num other) : Prop :=
  match v with VLgl _ => True | _ => False end.
(** A logical or numeric vector, or NULL. *)
Definition numeric_like {num other} (v : value num other) : Prop :=
  match v with VLgl _ | VNum _ | VNull => True | _ => False end.
(** Evaluating the expression changes nothing. *)
Definition pure (I : interp) (e : expr) : Prop :=
  forall s v s', eval I e s = Some (v, s') -> s' = s.

(** The forms on which the rules are right: the outer call has one unnamed
    argument, a call of [inner] with one unnamed argument; or the same with
    pipes. *)
Inductive nested_form (outer inner : text) : list frame -> expr -> list frame -> expr -> expr -> Prop :=
| nested_plain : forall fs f g x,
    fname f = Some outer -> fname g = Some inner ->
    nested_form outer inner fs (ECall f [(None, Some (ECall g [(None, Some x)]))])
                fs (ECall f [(None, Some (ECall g [(None, Some x)]))]) x
| nested_pipe : forall fs nl f g x,
    fname f = Some outer -> fname g = Some inner ->
    nested_form outer inner (FBinR BPipe nl (ECall g [(None, Some x)]) :: fs) (ECall f [])
                fs (EBin BPipe nl (ECall g [(None, Some x)]) (ECall f [])) x
| nested_pipes : forall fs nl nl' f g x,
    fname f = Some outer -> fname g = Some inner ->
    nested_form outer inner (FBinR BPipe nl (EBin BPipe nl' x (ECall g [])) :: fs) (ECall f [])
                fs (EBin BPipe nl (EBin BPipe nl' x (ECall g [])) (ECall f [])) x.


(** R's matching of arguments to formals: by name first, then the unnamed
    arguments in order; [None] when an argument is left over or a formal has
    none. *)
Fixpoint r_match (formals : list text) (args : list arg) (unnamed : list (option expr))
  : option (list (option expr)) :=
  match formals with
  | [] => match unnamed with [] => Some [] | _ => None end
  | n :: fs =>
      match find (fun a : arg => match fst a with Some m => teqb m n | None => false end) args with
      | Some a => option_map (cons (snd a)) (r_match fs args unnamed)
      | None =>
          match unnamed with
          | v :: u => option_map (cons v) (r_match fs args u)
          | [] => None
          end
      end
  end.
Definition r_args (formals : list text) (args : list arg) : option (list (option expr)) :=
  r_match formals args
    (map snd (filter (fun a : arg => match fst a with None => true | _ => false end) args)).

(** The formals of R's ifelse(), dplyr's if_else() and data.table's fifelse(). *)
Inductive conditional : text -> list text -> Prop :=
| cond_ifelse : conditional (lit "ifelse") [lit "test"; lit "yes"; lit "no"]
| cond_if_else : conditional (lit "if_else") [lit "condition"; lit "true"; lit "false"]
| cond_fifelse : conditional (lit "fifelse") [lit "test"; lit "yes"; lit "no"].

(** The fix of the report is read as one expression put in place of the node
    reported, with nothing around it changed; and it is a [shape]. *)
Definition fix_is_one_expression (shape : expr -> Prop) (p : place) (r : report) : Prop :=
  forall c, new_text r = Some c ->
    exists e', c = toks e' /\ shape e' /\
      reads (edited (fix_place p r) c) (file_with (fix_place p r) e').
(** The report is about a node of the file of [p] and [e]. *)
Definition reports_a_node (p : place) (e : expr) (r : report) : Prop :=
  file_with (fix_place p r) (at_node r) = file_with p e.

(** A call of the function [n]; the same with [!] before it. *)
Definition call_of (n : text) (e : expr) : Prop := exists args, e = ECall (EAtom (AId n)) args.
Definition not_call_of (n : text) (e : expr) : Prop := exists args, e = EUn UNot (ECall (EAtom (AId n)) args).

(** [if (is.null(x)) y else x], or [if (!is.null(x)) x else y], where a branch
    may be a block of one expression. *)
Definition one_of (e x : expr) : Prop := e = x \/ e = EBraces [x].
Inductive null_default : expr -> expr -> expr -> Prop :=
| null_first : forall f x y x' y',
    fname f = Some (lit "is.null") -> one_of x' x -> one_of y' y ->
    null_default (EIf (ECall f [(None, Some x)]) y' (Some x')) x y
| null_second : forall f x y x' y',
    fname f = Some (lit "is.null") -> one_of x' x -> one_of y' y ->
    null_default (EIf (EUn UNot (ECall f [(None, Some x)])) x' (Some y')) x y.

(** The operator before a node binds looser than [%||%]. *)
Definition looser_than_special (o : option lop) : bool :=
  match o with
  | Some (LBin (BSpecial _ | BPipe | BColon | BPow)) => false
  | Some (LUn (UNeg | UPos)) => false
  | _ => true
  end.

(** The variables [names] hold single numbers (or NA); or logical values. *)
Definition numbers (names : list text) (I : interp) : Prop :=
  forall x, In x names -> yields I (EAtom (AId x)) (fun v => exists n, v = VNum [n]).
Definition logicals (names : list text) (I : interp) : Prop :=
  forall x, In x names -> yields I (EAtom (AId x)) (fun v => exists b, v = VLgl [b]).
(** The variables T and F have their usual values. *)
Definition usual_T_F (I : interp) : Prop :=
  ceq (eval I (EAtom (AId (lit "T")))) (eval I (EAtom ATrue)) /\
  ceq (eval I (EAtom (AId (lit "F")))) (eval I (EAtom AFalse)).

(** The rules whose fix is a call (or a call with [!] before it), with what the
    fix calls. *)
Definition ok_report {A} (x : res (option A)) : option A :=
  match x with ROk o => o | _ => None end.
Definition call_rules : list ((list frame -> expr -> option report) * (expr -> Prop)) :=
  let call := call_of in
  let maybe n e := call_of n e \/ not_call_of n e in
  let either m n e := call_of m e \/ call_of n e in
  [ (any_is_na, call (lit "anyNA")); (any_is_na_2, call (lit "anyNA"));
    (length_levels, call (lit "nlevels")); (which_grepl, call (lit "grep"));
    (equals_na, maybe (lit "is.na")); (equals_null, maybe (lit "is.null"));
    (class_equals, maybe (lit "inherits")); (class_identical, call (lit "inherits"));
    (seq_rule, either (lit "seq_along") (lit "seq_len"));
    (seq2_rule, either (lit "seq_along") (lit "seq_len"));
    (sort_rule, call (lit "sort"));
    (fun fs e => ok_report (lengths_rule fs e), call (lit "lengths"));
    (fun fs e => ok_report (sample_int fs e), call (lit "sample.int"));
    (grepv, call (lit "grepv")); (system_file, call (lit "system.file")) ].
