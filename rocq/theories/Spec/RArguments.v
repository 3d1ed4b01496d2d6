(** How R passes the arguments of a call (R Language Definition, 4.3.2).

    Each argument with a name goes to the formal of that name, or else to a
    formal whose name it begins; the arguments without a name go to the formals
    that are left, in order.  [formals] are those before any [...]. *)
From Verif Require Export Spec.RFlagged.

(** Some argument goes to the formal [n] by its name. *)
Definition passed_by_name (formals : list text) (args : list arg) (n : text) (a : arg) : Prop :=
  In a args /\
  (fst a = Some n \/
   not_named n args /\ exists m u, fst a = Some m /\ ~ In m formals /\ n = m ++ u).
(** How many of these formals no argument goes to by name. *)
Inductive left_over (formals : list text) (args : list arg) : list text -> nat -> Prop :=
| left_none : left_over formals args [] 0
| left_taken : forall n l k a, passed_by_name formals args n a -> left_over formals args l k -> left_over formals args (n :: l) k
| left_free : forall n l k, (forall a, ~ passed_by_name formals args n a) -> left_over formals args l k ->
    left_over formals args (n :: l) (S k).
(** R gives the argument [a] to the formal [n]. *)
Inductive r_arg (formals : list text) (args : list arg) (n : text) : arg -> Prop :=
| r_named : forall a, In n formals -> passed_by_name formals args n a -> r_arg formals args n a
| r_unnamed : forall before after k a, formals = before ++ n :: after -> (forall b, ~ passed_by_name formals args n b) ->
    left_over formals args before k -> nth_error (unnamed_args args) k = Some a -> r_arg formals args n a.
(** Names are given once, and in full if at all. *)
Definition given_names_of (args : list arg) : list text :=
  flat_map (fun a : arg => match fst a with Some m => [m] | None => [] end) args.
Definition plain_names (formals : list text) (args : list arg) : Prop :=
  NoDup (given_names_of args) /\
  forall m, In m (given_names_of args) -> In m formals \/ forall u, ~ In (m ++ u) formals.

(** The formals of some functions, before any [...]. *)
Definition download_formals : list text :=
  [lit "url"; lit "destfile"; lit "method"; lit "quiet"; lit "mode"; lit "cacheOK"; lit "extra"; lit "headers"].
Definition sub_formals : list text :=
  [lit "pattern"; lit "replacement"; lit "x"; lit "ignore.case"; lit "perl"; lit "fixed"; lit "useBytes"].
Definition grepl_formals : list text :=
  [lit "pattern"; lit "x"; lit "ignore.case"; lit "perl"; lit "fixed"; lit "useBytes"].
Definition ifelse_arguments : list text := [lit "test"; lit "yes"; lit "no"].
(** The three functions of redundant_ifelse. *)
Definition ifelse_functions : list (text * list text) :=
  [ (lit "ifelse", ifelse_arguments);
    (lit "if_else", [lit "condition"; lit "true"; lit "false"]);
    (lit "fifelse", ifelse_arguments) ].
Definition truth (b : bool) : expr := EAtom (if b then ATrue else AFalse).
(** [rowSums], [colMeans], ... *)
Definition margin_function (row sum : bool) : text :=
  (if row then lit "row" else lit "col") ++ (if sum then lit "Sums" else lit "Means").
(** [expect_equal(inner(x), other)], or the other way round, becomes
    [new(x, other)]; object and expected are those of R. *)
Definition two_arguments_read (inner new : text) (args : list arg) (e : expr) (fs : list frame) (r : report) : Prop :=
  exists f ma a mb b c other gargs mx x,
    r_arg [lit "object"; lit "expected"] args (lit "object") (ma, Some a) /\
    r_arg [lit "object"; lit "expected"] args (lit "expected") (mb, Some b) /\
    (c = a /\ other = b \/ c = b /\ other = a) /\
    calls inner c gargs /\ chosen gargs (lit "x") 1 (mx, Some x) /\
    e = ECall f args /\ at_node r = e /\ at_frames r = fs /\
    new_text r = Some (expect_text f new (toks x ++ TComma :: toks other)).
