(** A small concrete R with the functions of Spec/RFunctions.v and Spec/RExpect.v, used to show that those requirements can be
    met and to exhibit programs that an edit changes.  It is the R of Spec/RDemo.v with other calls,
    subsetting and [:].  The class of the object named [both] is [a] and [b], of another object [a], of a
    vector [vector]; length() is the number of elements, the levels of an object are two, the length of each
    element of a vector is one. *)
From Verif Require Export Spec.RDemo Spec.RFunctions Spec.RExpect.

Definition lib_len (v : dval) : nat :=
  match v with VNum l => length l | VStr l => length l | VLgl l => length l | VNull => 0 | VOther _ => 1 end.
Definition lib_levels (v : dval) : dval :=
  match v with VOther _ => VStr [Some (lit "p"); Some (lit "q")] | _ => VNull end.
Definition lib_class (v : dval) : list text :=
  match v with
  | VOther o => if teqb o (lit "both") then [lit "a"; lit "b"] else if teqb o (lit "call") then [lit "call"] else [lit "a"]
  | _ => [lit "vector"]
  end.
Definition lib_lens (v : dval) : list nat := repeat 1 (lib_len v).
(** The object named [call] has no class attribute; objects have names [p] and [q]; the object named [sym] is a
    symbol, the one named [factor] is stored as integers, others are lists. *)
Definition lib_s3 (v : dval) : bool := match v with VOther o => negb (teqb o (lit "call")) | _ => false end.
Definition lib_names (v : dval) : option (list (option text)) :=
  match v with VOther _ => Some [Some (lit "p"); Some (lit "q")] | _ => None end.
Definition lib_type (v : dval) : text :=
  match v with
  | VNum _ => lit "double" | VStr _ => lit "character" | VLgl _ => lit "logical" | VNull => lit "NULL"
  | VOther o => if teqb o (lit "sym") then lit "symbol" else if teqb o (lit "factor") then lit "integer" else lit "list"
  end.
Definition lib_size (n : text) (v : dval) : nat := lib_len v.

Definition base : interp := demo (fun _ => None).
Definition one_nat (v : dval) : option nat :=
  match v with VNum [Some z] => if (z <? 0)%Z then None else Some (Z.to_nat z) | _ => None end.
(** An expectation that is met gives NULL; one that is not stops the program. *)
Definition told1 (g : dval -> bool) (v : dval) : option dval := if g v then Some VNull else None.
Definition told2 (g : dval -> dval -> bool) (v w : dval) : option dval := if g v w then Some VNull else None.
Definition lib_equal (v w : dval) : bool := match equal base Z.eqb v w with Some b => b | None => false end.
Definition lib1 : list (text * (dval -> option dval)) :=
  [ (lit "order", vorder base); (lit "sort", vsort base); (lit "which", vwhich base);
    (lit "levels", fun v => Some (lib_levels v)); (lit "nlevels", fun v => Some (number base (lib_len (lib_levels v))));
    (lit "length", fun v => Some (number base (lib_len v))); (lit "nrow", fun v => Some (number base (lib_len v)));
    (lit "ncol", fun v => Some (number base (lib_len v))); (lit "NROW", fun v => Some (number base (lib_len v)));
    (lit "NCOL", fun v => Some (number base (lib_len v)));
    (lit "seq_along", fun v => Some (numbers_of base (seq 1 (lib_len v))));
    (lit "seq_len", fun v => option_map (fun n => numbers_of base (seq 1 n)) (one_nat v));
    (lit "seq", fun v => option_map (fun n => numbers_of base (count 1 n)) (one_nat v));
    (lit "class", fun v => Some (VStr (map Some (lib_class v))));
    (lit "lengths", fun v => Some (numbers_of base (lib_lens v)));
    (lit "names", fun v => Some (match lib_names v with Some l => VStr l | None => VNull end));
    (lit "typeof", fun v => Some (VStr [Some (lib_type v)]));
    (lit "expect_null", told1 (fun v => match v with VNull => true | _ => false end));
    (lit "expect_true", told1 (fun v => match v with VLgl [Some true] => true | _ => false end));
    (lit "expect_false", told1 (fun v => match v with VLgl [Some false] => true | _ => false end)) ] ++
  map (fun t => (fst t, fun v => Some (lgls base [has_type base lib_type (snd t) v]))) type_tests.
Definition lib2 : list (text * (dval -> dval -> option dval)) :=
  [ (lit "grepl", fun v w => option_map (lgls base) (matches base teqb v w));
    (lit "grep", fun v w => option_map (fun l => places base (hits 0 l)) (matches base teqb v w));
    (lit "inherits", fun v w => match w with VStr [Some t] => Some (lgls base [existsb (teqb t) (lib_class v)]) | _ => None end);
    (lit "sapply", fun v w => Some (if length (lib_lens v) =? 0 then VOther (lit "list()") else numbers_of base (lib_lens v)));
    (lit "expect_equal", told2 lib_equal); (lit "expect_identical", told2 lib_equal);
    (lit "expect_length", told2 (fun v w => match one_nat w with Some k => lib_len v =? k | None => false end));
    (lit "expect_named", told2 (fun v w => match w, lib_names v with VStr r, Some l => same_list teqb l r | _, _ => false end));
    (lit "expect_s3_class", told2 (fun v w => match w with VStr [Some t] => lib_s3 v && existsb (teqb t) (lib_class v) | _ => false end));
    (lit "expect_type", told2 (fun v w => match w with VStr [Some t] => teqb t (lib_type v) | _ => false end));
    (lit "expect_match", told2 (fun v w => match matches base teqb w v with
       | Some l => negb (length l =? 0) && forallb (fun b => b) l | None => false end));
    (lit "expect_no_match", told2 (fun v w => match matches base teqb w v with
       | Some l => forallb negb l | None => false end)) ].
Definition entry {A} (n : text) (l : list (text * A)) : option A := option_map snd (find (fun a => teqb (fst a) n) l).

Definition lib_call (f : dcomp) (args : list (option text * option dcomp)) : dcomp := fun s =>
  match f s with
  | Some (VOther n, s1) =>
      match args with
      | [(None, Some c)] =>
          match entry n lib1, c s1 with
          | Some g, Some (v, s2) => option_map (fun w => (w, s2)) (g v)
          | _, _ => None
          end
      | [(None, Some c); (None, Some d)] =>
          match entry n lib2, c s1 with
          | Some g, Some (v, s2) =>
              match d s2 with Some (w, s3) => option_map (fun x => (x, s3)) (g v w) | None => None end
          | _, _ => None
          end
      | _ => None
      end
  | _ => None
  end.
(** Positions, from numbers; those of [places]. *)
Fixpoint positions (l : list (option Z)) : option (list nat) :=
  match l with
  | [] => Some []
  | Some z :: r => if (z <=? 0)%Z then None else option_map (cons (Z.to_nat z - 1)) (positions r)
  | None :: _ => None
  end.
Definition lib_sub (d : bool) (c : dcomp) (args : list (option text * option dcomp)) : dcomp := fun s =>
  match d, args with
  | false, [(None, Some i)] =>
      match c s with
      | Some (v, s1) =>
          match i s1 with
          | Some (VNum l, s2) =>
              match positions l with
              | Some ks => option_map (fun x => (x, s2)) (elements_at base v ks)
              | None => None
              end
          | _ => None
          end
      | None => None
      end
  | _, _ => None
  end.
Definition lib_bin (o : binop) (c d : dcomp) : dcomp := fun s =>
  match o with
  | BColon =>
      match c s with
      | Some (v, s1) =>
          match d s1 with
          | Some (w, s2) =>
              match one_nat v, one_nat w with
              | Some a, Some b => Some (numbers_of base (count a b), s2)
              | _, _ => None
              end
          | None => None
          end
      | None => None
      end
  | _ => d_bin o c d s
  end.

Lemma lib_call_ext : forall f f' a a', ceq f f' -> argseq a a' -> ceq (lib_call f a) (lib_call f' a').
Proof.
  intros f f' a a' H G s. unfold lib_call. rewrite H. destruct (f' s) as [[[| | | |n] s1]|]; try reflexivity.
  destruct G as [|[m c] [m' c'] l l' [Hm Hc] G]; [reflexivity|]. cbn [fst snd] in Hm, Hc. subst m'.
  destruct G as [|[m2 d] [m2' d'] k k' [Hm2 Hd] G].
  - destruct m; [destruct Hc; reflexivity|]. destruct Hc as [|c c' Hc]; [reflexivity|]. rewrite Hc. reflexivity.
  - cbn [fst snd] in Hm2, Hd. subst m2'. destruct m; [destruct Hc; reflexivity|]. destruct Hc as [|c c' Hc]; [reflexivity|].
    destruct m2; [destruct Hd; reflexivity|]. destruct Hd as [|d d' Hd]; [reflexivity|].
    destruct G; [|reflexivity]. rewrite Hc. destruct (entry n lib2); [|reflexivity].
    destruct (c' s1) as [[v s2]|]; [|reflexivity]. rewrite Hd. reflexivity.
Qed.
Lemma lib_sub_ext : forall d f f' a a', ceq f f' -> argseq a a' -> ceq (lib_sub d f a) (lib_sub d f' a').
Proof.
  intros d f f' a a' H G s. unfold lib_sub. destruct d; [reflexivity|].
  destruct G as [|[m c] [m' c'] l l' [Hm Hc] G]; [reflexivity|]. cbn [fst snd] in Hm, Hc. subst m'.
  destruct m; [destruct Hc; reflexivity|]. destruct Hc as [|c c' Hc]; [reflexivity|].
  destruct G; [|reflexivity]. rewrite H. destruct (f' s) as [[v s1]|]; [|reflexivity]. rewrite Hc. reflexivity.
Qed.

(** A string literal without its quotes. *)
Definition unquoted (t : text) : text := match t with 34%N :: r => removelast r | _ => t end.
Definition library (env : text -> option dval) : interp.
Proof.
  refine {| state := Z; other := text; num := Z;
            ncmp := Z.compare; isnan := fun _ => false; nlit := digits; nnat := Z.of_nat;
            nneg := Z.opp; ninf := 1000000%Z; is_int := fun _ => false;
            scmp := tcmp; slit := unquoted; nstr := fun _ => []; bstr := fun b => if b then lit "TRUE" else lit "FALSE";
            str_lgl := fun _ => None;
            o_cmp := fun _ _ _ => None; o_in := fun _ _ => None; o_not := fun _ => None;
            o_lgl := fun _ => None; o_isna := fun _ => None; o_dup := fun _ => None;
            o_logic := fun _ _ _ => None; o_sign := fun _ _ => None;
            o_isnum := fun _ => false; o_isint := fun o => teqb o (lit "factor");
            i_atom := fun a s => match a with
              | AId x => Some (match env x with Some v => v | None => VOther x end, s)
              | ANs p _ x => Some (if teqb p (lit "base") || teqb p (lit "testthat") then VOther x else VNull, s)
              | _ => None end;
            i_call := lib_call;
            i_sub := lib_sub;
            i_ext := fun c _ _ => c;
            i_un := fun _ _ _ => None; i_bin := lib_bin;
            i_ifelse := fun _ _ _ _ => None;
            i_fun := fun _ _ s => Some (VOther (lit "function"), s);
            i_for := fun _ c b => d_while c b;
            i_while := d_while;
            i_repeat := fun b => b;
            i_set := fun _ _ v s => Some (v, s);
            i_set_sub := fun _ _ _ v s => Some (v, s);
            i_set_ext := fun _ _ _ v s => Some (v, s);
            i_set_call := fun _ _ v s => Some (v, s) |}.
  - intros a b. apply Nat2Z.inj_compare.
  - reflexivity.
  - reflexivity.
  - reflexivity.
  - reflexivity.
  - exact digits_zero.
  - reflexivity.
  - intro x. cbn. rewrite !Z.compare_eq_iff. lia.
  - reflexivity.
  - discriminate.
  - exact lib_call_ext.
  - exact lib_sub_ext.
  - intros f f' o n H s. apply H.
  - intros u f f' _ s. reflexivity.
  - intros o f f' g g' H G s. unfold lib_bin. destruct o; try exact (i_bin_ext base _ f f' g g' H G s).
    rewrite H. destruct (f' s) as [[v s1]|]; [|reflexivity]. rewrite G. reflexivity.
  - intros p p' f f' _ _ s. reflexivity.
  - intros v f f' g g' H G s. unfold d_while. rewrite H.
    destruct (f' s) as [[w s1]|]; [apply G|reflexivity].
  - intros f f' g g' H G s. unfold d_while. rewrite H.
    destruct (f' s) as [[w s1]|]; [apply G|reflexivity].
  - intros f f' H s. apply H.
  - intros d f f' a a' v _ _ s. reflexivity.
  - intros f f' o n v _ s. reflexivity.
  - intros f f' a a' v _ _ s. reflexivity.
Defined.
