(** A small concrete R, used to exhibit programs that an edit changes.  It is
    one of the interpretations of Spec/RSemantics.v: numbers are integers, the
    value of a variable comes from [env] (a variable not in [env] is a function
    of that name), any() works on any number of arguments, another unknown
    function returns how many calls were made before (its arguments are not
    evaluated), arithmetic works on single numbers, and the body of a loop runs
    once. *)
From Verif Require Export Spec.RFix.

(** The digits of a literal, read as one number; what follows an [e] is ignored. *)
Fixpoint digits_from (a : Z) (t : text) : Z :=
  match t with
  | [] => a
  | c :: t' =>
      if (c =? 101)%N || (c =? 69)%N then a
      else if (48 <=? c)%N && (c <=? 57)%N then digits_from (10 * a + (Z.of_N c - 48))%Z t'
      else digits_from a t'
  end.
Definition digits (t : text) : Z := digits_from 0 t.

Definition dval := value Z text.
Definition dcomp := Z -> option (dval * Z).

Definition one_num (v : dval) : option Z :=
  match v with
  | VNum [Some z] => Some z
  | VLgl [Some true] => Some 1%Z
  | VLgl [Some false] => Some 0%Z
  | _ => None
  end.
Definition arith (o : binop) (a b : Z) : option dval :=
  match o with
  | BAdd => Some (VNum [Some (a + b)%Z])
  | BSub => Some (VNum [Some (a - b)%Z])
  | BMul => Some (VNum [Some (a * b)%Z])
  | BPow => Some (VNum [Some (a ^ b)%Z])
  | _ => None
  end.
Definition d_bin (o : binop) (c d : dcomp) : dcomp := fun s =>
  match c s with
  | Some (v, s1) =>
      match d s1 with
      | Some (w, s2) =>
          match one_num v, one_num w with
          | Some a, Some b => option_map (fun r => (r, s2)) (arith o a b)
          | _, _ => None
          end
      | None => None
      end
  | None => None
  end.
Definition tcmp (a b : text) : comparison := if teqb a b then Eq else Lt.
Definition d_while (c b : dcomp) : dcomp := fun s =>
  match c s with Some (_, s1) => b s1 | None => None end.

Definition d_lgl (v : dval) : option (list (option bool)) :=
  match v with
  | VLgl l => Some l
  | VNum l => Some (map (option_map (fun z : Z => negb (z =? 0)%Z)) l)
  | VNull => Some []
  | _ => None
  end.
Fixpoint d_lgls (args : list (option text * option dcomp)) (s : Z) : option (list (option bool) * Z) :=
  match args with
  | [] => Some ([], s)
  | (_, Some c) :: args' =>
      match c s with
      | Some (v, s1) =>
          match d_lgl v, d_lgls args' s1 with
          | Some l, Some (l', s2) => Some (l ++ l', s2)
          | _, _ => None
          end
      | None => None
      end
  | (_, None) :: _ => None
  end.
Definition d_call (f : dcomp) (args : list (option text * option dcomp)) : dcomp := fun s =>
  match f s with
  | Some (VOther n, s1) =>
      if teqb n (lit "any") then
        match d_lgls args s1 with Some (l, s2) => Some (VLgl [any3 l], s2) | None => None end
      else Some (VNum [Some s1], (s1 + 1)%Z)
  | _ => None
  end.
Lemma d_lgls_ext : forall a a', argseq a a' -> forall s, d_lgls a s = d_lgls a' s.
Proof.
  intros a a' H. induction H as [|[n c] [n' c'] l l' [Hn Hc] H IH]; intro s; [reflexivity|].
  cbn in Hn, Hc |- *. destruct Hc as [|c c' Hc]; [reflexivity|].
  rewrite (Hc s). destruct (c' s) as [[v s1]|]; [|reflexivity].
  rewrite (IH s1). reflexivity.
Qed.

Lemma digits_app : forall a t z, Forall digit a ->
  digits_from z (a ++ t) = digits_from (digits_from z a) t.
Proof.
  induction a as [|c a IH]; intros t z H; [reflexivity|]. inversion H as [|? ? Hc Ha]; subst. unfold digit in Hc.
  cbn [digits_from app].
  replace (c =? 101)%N with false by (symmetry; apply N.eqb_neq; lia).
  replace (c =? 69)%N with false by (symmetry; apply N.eqb_neq; lia).
  replace (48 <=? c)%N with true by (symmetry; apply N.leb_le; lia).
  replace (c <=? 57)%N with true by (symmetry; apply N.leb_le; lia).
  cbn [orb andb]. apply IH. exact Ha.
Qed.
Lemma digits_exponent : forall x z, exponent x -> digits_from z x = z.
Proof. intros x z [|e s ds [ -> | -> ] _ _ _]; reflexivity. Qed.
Lemma digits_value : forall a z, (0 <= z)%Z -> Forall digit a ->
  (0 <= digits_from z a)%Z /\ (digits_from z a = 0%Z <-> z = 0%Z /\ all_zero a).
Proof.
  induction a as [|c a IH]; intros z Hz H.
  - cbn. split; [exact Hz|]. unfold all_zero. intuition auto.
  - inversion H as [|? ? Hc Ha]; subst. unfold digit in Hc.
    assert (E : digits_from z (c :: a) = digits_from (10 * z + (Z.of_N c - 48)) a).
    { cbn [digits_from].
      replace (c =? 101)%N with false by (symmetry; apply N.eqb_neq; lia).
      replace (c =? 69)%N with false by (symmetry; apply N.eqb_neq; lia).
      replace (48 <=? c)%N with true by (symmetry; apply N.leb_le; lia).
      replace (c <=? 57)%N with true by (symmetry; apply N.leb_le; lia).
      reflexivity. }
    rewrite E. destruct (IH (10 * z + (Z.of_N c - 48))%Z) as [H1 H2]; [lia|exact Ha|].
    split; [exact H1|]. rewrite H2. unfold all_zero. split.
    + intros [H3 H4]. split; [lia|]. constructor; [lia|exact H4].
    + intros [H3 H4]. inversion H4; subst. split; [lia|assumption].
Qed.
Lemma digits_zero : forall t ds, literal t ds -> (Z.compare (digits t) (Z.of_nat 0) = Eq <-> all_zero ds).
Proof.
  intros t ds H. rewrite Z.compare_eq_iff. unfold digits. change (Z.of_nat 0) with 0%Z.
  assert (D : forall a, Forall digit a -> (digits_from 0 a = 0%Z <-> all_zero a)).
  { intros a Ha. destruct (digits_value a 0%Z (Z.le_refl 0) Ha) as [_ E]. rewrite E. intuition auto. }
  destruct H as [a _ Ha|a x _ Ha Hx|a b x _ Ha Hb Hx].
  - rewrite digits_app by exact Ha. cbn. apply D. exact Ha.
  - rewrite digits_app by exact Ha. rewrite digits_exponent by exact Hx. apply D. exact Ha.
  - rewrite digits_app by exact Ha. change (lit "." ++ b ++ x) with (46%N :: (b ++ x)). cbn [digits_from].
    change (46 =? 101)%N with false. change (46 =? 69)%N with false. change (48 <=? 46)%N with false.
    cbn [orb andb]. rewrite digits_app by exact Hb. rewrite digits_exponent by exact Hx.
    rewrite <- digits_app by exact Ha. apply D. apply Forall_app. split; assumption.
Qed.

Definition demo (env : text -> option dval) : interp.
Proof.
  refine {| state := Z; other := text; num := Z;
            ncmp := Z.compare; isnan := fun _ => false; nlit := digits; nnat := Z.of_nat;
            nneg := Z.opp; ninf := 1000000%Z; is_int := fun _ => false;
            scmp := tcmp; slit := fun t => t; nstr := fun _ => []; bstr := fun b => if b then lit "TRUE" else lit "FALSE";
            str_lgl := fun _ => None;
            o_cmp := fun _ _ _ => None; o_in := fun _ _ => None; o_not := fun _ => None;
            o_lgl := fun _ => None; o_isna := fun _ => None; o_dup := fun _ => None;
            o_logic := fun _ _ _ => None; o_sign := fun _ _ => None;
            o_isnum := fun _ => false; o_isint := fun o => teqb o (lit "factor");
            i_atom := fun a s => match a with
              | AId x => Some (match env x with Some v => v | None => VOther x end, s)
              | ANs _ _ x => Some (VOther (lit "other"), s)
              | _ => None end;
            i_call := d_call;
            i_sub := fun _ c _ => c;
            i_ext := fun c _ _ => c;
            i_un := fun _ _ _ => None; i_bin := d_bin;
            i_ifelse := fun _ _ _ _ => None;
            i_fun := fun _ _ s => Some (VOther (lit "function"), s);
            i_for := fun _ c b => d_while c b;
            i_while := d_while;
            i_repeat := fun b => b;
            i_set := fun _ _ v s => Some (v, s);
            i_set_sub := fun _ _ _ v s => Some (v, s);
            i_set_ext := fun _ _ _ v s => Some (v, s);
            i_set_call := fun _ _ v s => Some (v, s) |}.
  - intros a b. apply Nat2Z.inj_compare.
  - reflexivity.
  - reflexivity.
  - reflexivity.
  - reflexivity.
  - exact digits_zero.
  - reflexivity.
  - intro x. cbn. rewrite !Z.compare_eq_iff. lia.
  - reflexivity.
  - discriminate.
  - intros f f' a a' H G s. unfold d_call. rewrite H.
    destruct (f' s) as [[[| | | |n] s1]|]; try reflexivity.
    rewrite (d_lgls_ext _ _ G). reflexivity.
  - intros d f f' a a' H _ s. apply H.
  - intros f f' o n H s. apply H.
  - intros u f f' _ s. reflexivity.
  - intros o f f' g g' H G s. unfold d_bin. rewrite H.
    destruct (f' s) as [[v s1]|]; [|reflexivity]. rewrite G. reflexivity.
  - intros p p' f f' _ _ s. reflexivity.
  - intros v f f' g g' H G s. unfold d_while. rewrite H.
    destruct (f' s) as [[w s1]|]; [apply G|reflexivity].
  - intros f f' g g' H G s. unfold d_while. rewrite H.
    destruct (f' s) as [[w s1]|]; [apply G|reflexivity].
  - intros f f' H s. apply H.
  - intros d f f' a a' v _ _ s. reflexivity.
  - intros f f' o n v _ s. reflexivity.
  - intros f f' a a' v _ _ s. reflexivity.
Defined.
