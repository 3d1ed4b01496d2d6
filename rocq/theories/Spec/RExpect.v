(** What testthat's expectations judge (C101): expect_equal(), expect_identical(), expect_null(),
    expect_true(), expect_false(), expect_length(), expect_named(), expect_s3_class(), expect_type(),
    expect_match(), expect_no_match(), on plain vectors and, through abstract functions, on other objects.

    These are requirements on an [interp] of Spec/RSemantics.v, whose meaning of them is open.
    Simplification: an expectation is its verdict; the message of a failure and the value of the call (its
    first argument, invisibly) are left out. *)
From Verif Require Export Spec.RFunctions.

(** The function [n] of testthat, named with or without its package. *)
Definition expectation (f : expr) (n : text) : Prop :=
  f = EAtom (AId n) \/ exists internal, f = EAtom (ANs (lit "testthat") internal n).

(** The two expectations of equality. *)
Definition equality_of (f : expr) : Prop := expectation f (lit "expect_equal") \/ expectation f (lit "expect_identical").

Section Expectations.
Variable I : interp.
Notation val := (value (num I) (other I)).
(** What happens next when an expectation is met, and when it is not. *)
Variable tell : bool -> comp I.

(** The expectation [n], with one (two) unnamed arguments, evaluates them in order and then tells the
    verdict [g]; where [g] gives nothing, anything may happen. *)
Definition judges1 (n : text) (g : val -> option bool) : Prop :=
  forall f c s, expectation f n ->
    match c s with
    | None => i_call I (eval I f) [(None, Some c)] s = None
    | Some (v, s1) => forall b, g v = Some b -> i_call I (eval I f) [(None, Some c)] s = tell b s1
    end.
Definition judges2 (n : text) (g : val -> val -> option bool) : Prop :=
  forall f c d s, expectation f n ->
    match c s with
    | None => i_call I (eval I f) [(None, Some c); (None, Some d)] s = None
    | Some (v, s1) =>
        match d s1 with
        | None => i_call I (eval I f) [(None, Some c); (None, Some d)] s = None
        | Some (w, s2) => forall b, g v w = Some b -> i_call I (eval I f) [(None, Some c); (None, Some d)] s = tell b s2
        end
    end.

(** Equality of vectors, for a given equality of numbers.  Nothing is said about other objects, except
    that they are not NULL. *)
Fixpoint same_list {A} (eqb : A -> A -> bool) (l r : list (option A)) : bool :=
  match l, r with
  | [], [] => true
  | x :: l', y :: r' => oeqb eqb x y && same_list eqb l' r'
  | _, _ => false
  end.
Definition equal (near : num I -> num I -> bool) (v w : val) : option bool :=
  match v, w with
  | VNull, VNull => Some true
  | VNull, _ | _, VNull => Some false
  | VOther _, _ | _, VOther _ => None
  | VLgl l, VLgl r => Some (same_list Bool.eqb l r)
  | VNum l, VNum r => Some (same_list near l r)
  | VStr l, VStr r => Some (same_list teqb l r)
  | _, _ => Some false
  end.
(** expect_identical() also compares how numbers are stored, which is not modelled: nothing is said about
    two numeric vectors. *)
Definition identical (v w : val) : option bool :=
  match v, w with VNum _, VNum _ => None | _, _ => equal (fun _ _ => false) v w end.
(** expect_equal() has a tolerance, in proportion; counts up to a million are told apart. *)
Definition tolerance (near : num I -> num I -> bool) : Prop :=
  forall a b, (Z.of_nat a <= 1000000)%Z \/ (Z.of_nat b <= 1000000)%Z -> near (nnat I a) (nnat I b) = (a =? b).
Definition knows_equal : Prop := exists near, tolerance near /\
  judges2 (lit "expect_equal") (equal near) /\ judges2 (lit "expect_identical") identical.

(** expect_null(), expect_true(), expect_false() *)
Definition knows_constants : Prop :=
  judges1 (lit "expect_null") (fun v => Some (match v with VNull => true | _ => false end)) /\
  judges1 (lit "expect_true") (fun v => match v with
    | VOther _ => None | VLgl [Some true] => Some true | _ => Some false end) /\
  judges1 (lit "expect_false") (fun v => match v with
    | VOther _ => None | VLgl [Some false] => Some true | _ => Some false end).

(** length() and expect_length() *)
Definition knows_length (len : val -> nat) : Prop :=
  means1 I (lit "length") (fun v => Some (number I (len v))) /\
  (forall f c d s, expectation f (lit "expect_length") ->
     let call := i_call I (eval I f) [(None, Some c); (None, Some d)] in
     match c s with
     | None => call s = None
     | Some (v, s1) =>
         match d s1 with
         | None => call s = None
         | Some (w, s2) => forall k, w = number I k -> call s = tell (len v =? k) s2
         end
     end).

(** names() and expect_named() *)
Definition knows_names (nms : val -> option (list (option text))) : Prop :=
  means1 I (lit "names") (fun v => Some (match nms v with Some l => VStr l | None => VNull end)) /\
  judges2 (lit "expect_named") (fun v w => match w with
    | VStr r => Some (match nms v with Some l => same_list teqb l r | None => false end)
    | _ => None end).

(** class() and expect_s3_class(), which is met by no value without a class attribute. *)
Definition knows_s3 (cls : val -> list text) (s3 : val -> bool) : Prop :=
  means1 I (lit "class") (fun v => Some (VStr (map Some (cls v)))) /\
  judges2 (lit "expect_s3_class") (fun v w => match w with
    | VStr [Some t] => Some (s3 v && existsb (teqb t) (cls v))
    | _ => None end).

(** typeof(), expect_type() and the functions that test a type, with the types each accepts. *)
Definition type_tests : list (text * list text) :=
  [ (lit "is.logical", [lit "logical"]); (lit "is.integer", [lit "integer"]); (lit "is.double", [lit "double"]);
    (lit "is.complex", [lit "complex"]); (lit "is.character", [lit "character"]); (lit "is.raw", [lit "raw"]);
    (lit "is.list", [lit "list"; lit "pairlist"]); (lit "is.null", [lit "NULL"]);
    (lit "is.symbol", [lit "symbol"]); (lit "is.expression", [lit "expression"]);
    (lit "is.language", [lit "language"; lit "symbol"; lit "expression"]);
    (lit "is.environment", [lit "environment"]); (lit "is.pairlist", [lit "pairlist"; lit "NULL"]) ].
Definition has_type (ty : val -> text) (ts : list text) (v : val) : bool := existsb (teqb (ty v)) ts.
Definition knows_types (ty : val -> text) : Prop :=
  (forall t, Forall (fun c => c <> 34%N /\ c <> 92%N) t -> slit I (34%N :: t ++ [34%N]) = t) /\
  means1 I (lit "typeof") (fun v => Some (VStr [Some (ty v)])) /\
  judges2 (lit "expect_type") (fun v w => match w with VStr [Some t] => Some (teqb t (ty v)) | _ => None end) /\
  (forall n ts f c s, In (n, ts) type_tests -> fname f = Some n ->
     apply I (fname f) (eval I f) [(None, Some c)] s =
     match c s with None => None | Some (v, s1) => Some (lgls I [has_type ty ts v], s1) end).

(** grepl(), expect_match() and expect_no_match(), for a given meaning of regular expressions.  The last two are
    met when every, and no, string matches. *)
Definition knows_match (m : text -> text -> bool) : Prop :=
  means2 I (lit "grepl") (fun v w => option_map (lgls I) (matches I m v w)) /\
  judges2 (lit "expect_match") (fun v w =>
    option_map (fun l => negb (length l =? 0) && forallb (fun b => b) l) (matches I m w v)) /\
  judges2 (lit "expect_no_match") (fun v w => option_map (forallb negb) (matches I m w v)).
End Expectations.

(** A constant: evaluating it does nothing. *)
Definition constant (e : expr) : bool :=
  match e with EAtom (ANum _) | EAtom (AStr _) | EAtom ATrue | EAtom AFalse | EAtom ANull => true | _ => false end.
(** The arguments of an expectation of equality: [x], what it should be; or a constant first. *)
Definition compared (x y : expr) (args : list arg) : Prop :=
  args = [(None, Some x); (None, Some y)] \/ constant y = true /\ args = [(None, Some y); (None, Some x)].
(** A number up to a million. *)
Definition small_count (I : interp) (v : value (num I) (other I)) : Prop :=
  exists k, v = number I k /\ (Z.of_nat k <= 1000000)%Z.
