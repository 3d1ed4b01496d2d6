(** What the base R functions named in further rules do (C97): order(), sort(), which(), grepl(), grep(),
    levels(), nlevels(), length(), seq_along(), seq_len(), seq(), [:], class(), inherits(), sapply() with
    length() and lengths(), on plain vectors and, through abstract functions, on other objects.

    These are requirements on an [interp] of Spec/RSemantics.v, whose meaning of them is open. *)
From Verif Require Export Spec.RFix.

(** Stable sorting. *)
Fixpoint put {A} (le : A -> A -> bool) (x : A) (l : list A) : list A :=
  match l with [] => [x] | y :: r => if le x y then x :: l else y :: put le x r end.
Definition sorted {A} (le : A -> A -> bool) (l : list A) : list A := fold_right (put le) [] l.
Definition not_after {A} (cmp : A -> A -> comparison) (x y : A) : bool :=
  match cmp x y with Gt => false | _ => true end.

Section Vectors.
Context {A B : Type} (key : B -> option A) (le : A -> A -> bool).
(** The elements that are not missing, with their keys and positions, and the positions of the others. *)
Fixpoint present (k : nat) (l : list B) : list (A * nat) :=
  match l with
  | [] => []
  | x :: r => match key x with Some a => (a, k) :: present (S k) r | None => present (S k) r end
  end.
Fixpoint absent (k : nat) (l : list B) : list nat :=
  match l with
  | [] => []
  | x :: r => match key x with Some _ => absent (S k) r | None => k :: absent (S k) r end
  end.
(** order(): the positions, those of missing elements last. *)
Definition order_of (l : list B) : list nat :=
  map snd (sorted (fun a b => le (fst a) (fst b)) (present 0 l)) ++ absent 0 l.
(** sort(): the elements that are not missing. *)
Definition sort_of (l : list B) : list A :=
  sorted le (flat_map (fun x => match key x with Some a => [a] | None => [] end) l).
End Vectors.

Section Functions.
Variable I : interp.
Notation val := (value (num I) (other I)).

(** The function [n], with one (two) unnamed arguments, evaluates them in order and then does [g]; where
    [g] gives nothing, anything may happen. *)
Definition means1 (n : text) (g : val -> option val) : Prop :=
  forall f c s, fname f = Some n ->
    match c s with
    | None => i_call I (eval I f) [(None, Some c)] s = None
    | Some (v, s1) => forall w, g v = Some w -> i_call I (eval I f) [(None, Some c)] s = Some (w, s1)
    end.
Definition means2 (n : text) (g : val -> val -> option val) : Prop :=
  forall f c d s, fname f = Some n ->
    match c s with
    | None => i_call I (eval I f) [(None, Some c); (None, Some d)] s = None
    | Some (v, s1) =>
        match d s1 with
        | None => i_call I (eval I f) [(None, Some c); (None, Some d)] s = None
        | Some (w, s2) => forall x, g v w = Some x -> i_call I (eval I f) [(None, Some c); (None, Some d)] s = Some (x, s2)
        end
    end.

(** The numbers 1, 2, ... for the positions 0, 1, ... *)
Definition number (n : nat) : val := VNum [Some (nnat I n)].
Definition places (ks : list nat) : val := VNum (map (fun k => Some (nnat I (S k))) ks).

(** *** order, sort, subsetting *)
Definition num_key (x : option (num I)) : option (num I) :=
  match x with Some n => if isnan I n then None else Some n | None => None end.
Definition blt (a b : bool) : comparison :=
  match a, b with false, true => Lt | true, false => Gt | _, _ => Eq end.
Definition vorder (v : val) : option val :=
  match v with
  | VNum l => Some (places (order_of num_key (not_after (ncmp I)) l))
  | VStr l => Some (places (order_of (fun x => x) (not_after (scmp I)) l))
  | VLgl l => Some (places (order_of (fun x => x) (not_after blt) l))
  | _ => None
  end.
Definition vsort (v : val) : option val :=
  match v with
  | VNum l => Some (VNum (map Some (sort_of num_key (not_after (ncmp I)) l)))
  | VStr l => Some (VStr (map Some (sort_of (fun x => x) (not_after (scmp I)) l)))
  | VLgl l => Some (VLgl (map Some (sort_of (fun x => x) (not_after blt) l)))
  | _ => None
  end.
(** The elements of [v] at the positions [ks], all of which exist. *)
Definition elements_at (v : val) (ks : list nat) : option val :=
  let at_ {A} (l : list (option A)) := map (fun k => nth k l None) ks in
  let ok (n : nat) := forallb (fun k => k <? n) ks in
  match v with
  | VNum l => if ok (length l) then Some (VNum (at_ l)) else None
  | VStr l => if ok (length l) then Some (VStr (at_ l)) else None
  | VLgl l => if ok (length l) then Some (VLgl (at_ l)) else None
  | _ => None
  end.
(** [x[i]] *)
Definition subsets : Prop := forall c d s,
  match c s with
  | None => i_sub I false c [(None, Some d)] s = None
  | Some (v, s1) =>
      match d s1 with
      | None => i_sub I false c [(None, Some d)] s = None
      | Some (w, s2) => forall ks x, w = places ks -> elements_at v ks = Some x ->
                          i_sub I false c [(None, Some d)] s = Some (x, s2)
      end
  end.
Definition knows_sort : Prop := means1 (lit "order") vorder /\ means1 (lit "sort") vsort /\ subsets.
(** A vector without missing values. *)
Definition complete (v : val) : Prop :=
  (exists l, v = VNum l /\ Forall (fun x => num_key x <> None) l) \/
  (exists l, v = VStr (map Some l)) \/ (exists l, v = VLgl (map Some l)).

(** *** which, grepl, grep, for a given meaning of regular expressions *)
Fixpoint hits (k : nat) (l : list bool) : list nat :=
  match l with [] => [] | true :: r => k :: hits (S k) r | false :: r => hits (S k) r end.
Definition vwhich (v : val) : option val :=
  match v with
  | VLgl l => Some (places (hits 0 (map (fun x => match x with Some true => true | _ => false end) l)))
  | _ => None
  end.
Definition matches (m : text -> text -> bool) (v w : val) : option (list bool) :=
  match v, w with
  | VStr [Some p], VStr l => Some (map (fun x => match x with Some t => m p t | None => false end) l)
  | _, _ => None
  end.
Definition knows_grep : Prop := exists m,
  means2 (lit "grepl") (fun v w => option_map (lgls I) (matches m v w)) /\
  means2 (lit "grep") (fun v w => option_map (fun l => places (hits 0 l)) (matches m v w)) /\
  means1 (lit "which") vwhich.
Definition one_string (v : val) : Prop := exists t, v = VStr [Some t].
Definition strings (v : val) : Prop := exists l, v = VStr l.

(** *** levels and lengths, for a given meaning of levels() and length() *)
Definition knows_levels : Prop := exists (lev : val -> val) (len : val -> nat),
  means1 (lit "levels") (fun v => Some (lev v)) /\
  means1 (lit "length") (fun v => Some (number (len v))) /\
  means1 (lit "nlevels") (fun v => Some (number (len (lev v)))).

(** *** sequences *)
(** [a:b] counts up or down. *)
Definition count (a b : nat) : list nat :=
  if a <=? b then seq a (S b - a) else rev (seq b (S a - b)).
Definition numbers_of (l : list nat) : val := VNum (map (fun n => Some (nnat I n)) l).
Definition counts : Prop := forall c d s,
  match c s with
  | None => i_bin I BColon c d s = None
  | Some (v, s1) =>
      match d s1 with
      | None => i_bin I BColon c d s = None
      | Some (w, s2) => forall a b, v = number a -> w = number b -> i_bin I BColon c d s = Some (numbers_of (count a b), s2)
      end
  end.
(** A function on single natural numbers. *)
Definition on_number (n : text) (g : nat -> list nat) : Prop := forall f c s, fname f = Some n ->
  match c s with
  | None => i_call I (eval I f) [(None, Some c)] s = None
  | Some (v, s1) => forall k, v = number k -> i_call I (eval I f) [(None, Some c)] s = Some (numbers_of (g k), s1)
  end.
(** The functions that give a size, for a given meaning of each. *)
Definition sizes : list text := [lit "length"; lit "nrow"; lit "ncol"; lit "NROW"; lit "NCOL"].
Definition knows_seq (size : text -> val -> nat) : Prop :=
  counts /\ nlit I (lit "1L") = nnat I 1 /\
  (forall n, In n sizes -> means1 n (fun v => Some (number (size n v)))) /\
  means1 (lit "seq_along") (fun v => Some (numbers_of (seq 1 (size (lit "length") v)))) /\
  on_number (lit "seq_len") (fun n => seq 1 n) /\
  on_number (lit "seq") (fun n => count 1 n).

(** *** class and inherits, for given classes *)
Definition knows_class (cls : val -> list text) : Prop :=
  (forall t u, scmp I t u = Eq <-> t = u) /\
  means1 (lit "class") (fun v => Some (VStr (map Some (cls v)))) /\
  means2 (lit "inherits") (fun v w => match w with VStr [Some t] => Some (lgls I [existsb (teqb t) (cls v)]) | _ => None end).

(** *** sapply(x, length) and lengths(x), for given lengths of the elements *)
Definition knows_lengths (lens : val -> list nat) : Prop :=
  means1 (lit "lengths") (fun v => Some (numbers_of (lens v))) /\
  (forall f c s, fname f = Some (lit "sapply") ->
     let call := i_call I (eval I f) [(None, Some c); (None, Some (eval I (EAtom (AId (lit "length")))))] in
     match c s with
     | None => call s = None
     | Some (v, s1) => if length (lens v) =? 0 then exists o, call s = Some (VOther o, s1)
                       else call s = Some (numbers_of (lens v), s1)
     end).
End Functions.

(** The two operands are a call [f(x)], in either order, and the string [t]. *)
Definition class_and_string (l r : expr) (f : expr) (x : expr) (t : text) : Prop :=
  l = ECall f [(None, Some x)] /\ r = EAtom (AStr t) \/ l = EAtom (AStr t) /\ r = ECall f [(None, Some x)].
