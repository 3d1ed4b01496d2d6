(** Code on which a rule fails. *)
From Verif Require Export Spec.RSearch Spec.RMore.

(** The function called: [n], [pkg::n], [a$b] (whose name is all of it). *)
Inductive function_name : expr -> text -> Prop :=
| plain_name : forall n, function_name (EAtom (AId n)) n
| package_name : forall p i n, function_name (EAtom (ANs p i n)) n
| member_name : forall a op b, function_name (EExtract (EAtom (AId a)) op b) (a ++ op ++ b)
| return_name : function_name (EAtom (AOther (lit "return"))) (lit "return").

(** The argument called [n]; or, if there is none, the [k]-th without a name. *)
Definition unnamed_args (args : list arg) : list arg :=
  filter (fun a : arg => match fst a with None => true | Some _ => false end) args.
Inductive chosen (args : list arg) (n : text) (k : nat) : arg -> Prop :=
| by_name : forall pre v post, args = pre ++ (Some n, v) :: post -> not_named n pre ->
    chosen args n k (Some n, v)
| by_position : forall a, not_named n args -> nth_error (unnamed_args args) (k - 1) = Some a -> chosen args n k a.

(** The numbers that decide whether a condition is constant: the condition, or
    the operands of its [!], [-], [+], [|], [||], [&], [&&] and parentheses. *)
Inductive deciding : expr -> text -> Prop :=
| deciding_number : forall t, deciding (EAtom (ANum t)) t
| deciding_paren : forall e t, deciding e t -> deciding (EParen e) t
| deciding_unary : forall u e t, In u [UNot; UNeg; UPos] -> deciding e t -> deciding (EUn u e) t
| deciding_left : forall o nl l r t, In o [BOr; BOr2; BAnd; BAnd2] -> deciding l t -> deciding (EBin o nl l r) t
| deciding_right : forall o nl l r t, In o [BOr; BOr2; BAnd; BAnd2] -> deciding r t -> deciding (EBin o nl l r) t.

(** The number that digits stand for. *)
Inductive stands_for : text -> N -> Prop :=
| no_digits : stands_for [] 0
| one_more_digit : forall a v c d, stands_for a v -> (d < 10)%N -> c = (48 + d)%N -> stands_for (a ++ [c]) (10 * v + d).
(** Numbers jarl understands: integers in decimal below 2^63, imaginary numbers,
    and decimal numbers.  R has others: hexadecimal ones, and integers with an
    exponent. *)
Inductive understood : text -> Prop :=
| an_integer : forall a v, a <> [] -> stands_for a v -> (v < 2 ^ 63)%N -> understood (a ++ lit "L")
| an_imaginary : forall a, understood (a ++ lit "i")
| a_decimal : forall t ds, literal t ds -> (forall a, t <> a ++ lit "L") -> understood t.

(** What makes a rule fail. *)
Inductive stops : text -> expr -> Prop :=
| empty_length : forall f n args, function_name f (lit "length") ->
    stops (lit "length_test") (ECall f ((n, None) :: args))
| empty_fun : forall f n args m, In n [lit "sapply"; lit "vapply"; lit "map_dbl"; lit "map_int"] -> function_name f n ->
    chosen args (lit "FUN") 2 (m, None) -> stops (lit "lengths") (ECall f args)
| no_x : forall f n args m, In n [lit "sapply"; lit "vapply"; lit "map_dbl"; lit "map_int"] -> function_name f n ->
    chosen args (lit "FUN") 2 (m, Some (EAtom (AId (lit "length")))) -> (forall a, ~ chosen args (lit "x") 1 a) ->
    stops (lit "lengths") (ECall f args)
| empty_sample : forall f args m, function_name f (lit "sample") -> chosen args (lit "n") 1 (m, None) ->
    stops (lit "sample_int") (ECall f args)
| called_keyword : forall f args,
    match f with
    | EAtom (ATrue | AFalse | ANull | ANa _) => True
    | EAtom (AOther t) => t <> lit "return"
    | EUn _ _ | EBin _ _ _ _ | EIf _ _ _ | EFun _ _ | EFor _ _ _ | EWhile _ _ | ERepeat _ => True  (* cannot be read *)
    | _ => False
    end -> stops (lit "duplicated_arguments") (ECall f args)
| odd_number : forall c t u, deciding c u -> ~ understood u -> stops (lit "if_always_true") (EIf c t None).

(** A rule that always answers. *)
Definition never_fails (f : rule_fn) : Prop := forall fs e, exists rs, f fs e = ROk rs.
