(** Results and string splitting, shared by several models. *)
From Verif Require Import Model.Text.

(** [anyhow::Result<A>], with panics made explicit. *)
Inductive res (A : Type) := ROk (a : A) | RErr | RPanic.
Arguments ROk {A} a. Arguments RErr {A}. Arguments RPanic {A}.
(** The [?] operator. *)
Definition rbind {A B} (r : res A) (f : A -> res B) : res B :=
  match r with ROk a => f a | RErr => RErr | RPanic => RPanic end.

(** [str::split(char)]: always at least one piece. *)
Fixpoint split_on (x : char) (t : text) : list text :=
  match t with
  | [] => [[]]
  | c :: r =>
      if N.eqb c x then [] :: split_on x r
      else match split_on x r with
           | [] => [[c]] (* unreachable *)
           | p :: ps => (c :: p) :: ps
           end
  end.

(** [str::split_inclusive('\n')]: the pieces keep their newline; no empty last piece. *)
Fixpoint split_incl (t : text) : list text :=
  match t with
  | [] => []
  | c :: r =>
      if N.eqb c nl then [c] :: split_incl r
      else match split_incl r with
           | [] => [[c]]
           | p :: ps => (c :: p) :: ps
           end
  end.

(** [str::lines]: pieces of [split_inclusive('\n')] without their line ending ([\n] or [\r\n]). *)
Definition strip_suffix1 (x : char) (t : text) : option text :=
  match rev t with
  | c :: r => if N.eqb c x then Some (rev r) else None
  | [] => None
  end.
Definition chomp (l : text) : text :=
  match strip_suffix1 nl l with
  | None => l
  | Some l' => match strip_suffix1 13%N l' with None => l' | Some l'' => l'' end
  end.
Definition lines (t : text) : list text := map chomp (split_incl t).

(** [str::replace(pat, "")] for a non-empty pattern, non-overlapping left to right.
    [n] bounds the recursion; the length of the text suffices. *)
Fixpoint remove_all_n (n : nat) (pat t : text) : text :=
  match n with
  | O => t
  | S n' =>
      match strip_prefix pat t with
      | Some r => remove_all_n n' pat r
      | None => match t with [] => [] | c :: r => c :: remove_all_n n' pat r end
      end
  end.
Definition remove_all (pat t : text) : text := remove_all_n (length t) pat t.

Definition mem (x : text) (l : list text) : bool := existsb (teqb x) l.
